(** * BbnProofs: the query of the model computes sums of the joint. *)
From Coq Require Import List Bool Arith Lia String QArith Qcanon Permutation.
From Verif Require Import Base QcX BbnModel SumOver Forest Elim Triang Kruskal RTree Sched Calib BbnTables.
Import ListNotations.
Local Open Scope Qc_scope.
Local Open Scope list_scope.

(** ** Edges of a rooted tree *)
Fixpoint tedges (t : rtree) : list (nat * nat) :=
  match t with
  | RNode x ts => flat_map (fun t' => (x, root t') :: tedges t') ts
  end.

Lemma tedges_nodes t x c : In (x, c) (tedges t) -> In x (nodes t) /\ In c (nodes t).
Proof.
  revert x c. induction t as [r ts IH] using rtree_ind'. rewrite Forall_forall in IH.
  intros x c H. simpl in H. apply in_flat_map in H as (t & Ht & H). simpl.
  destruct H as [[= <- <-]|H].
  - split; auto. right. apply in_flat_map. exists t. split; auto. apply root_nodes.
  - apply IH in H as [H1 H2]; auto. split; right; apply in_flat_map; eauto.
Qed.

Lemma tedges_child t x c : NoDup (nodes t) -> In (x, c) (tedges t) -> c <> root t.
Proof.
  destruct t as [r ts]. simpl. intros ND H. inversion ND as [|? ? Nr _]; subst.
  apply in_flat_map in H as (t & Ht & H). intros ->. apply Nr. apply in_flat_map. exists t. split; auto.
  destruct H as [[= <- E]|H]; [rewrite <- E; apply root_nodes|]. eapply tedges_nodes; eauto.
Qed.

Lemma tedges_uniq t : NoDup (nodes t) -> forall x y c, In (x, c) (tedges t) -> In (y, c) (tedges t) -> x = y.
Proof.
  induction t as [r ts IH] using rtree_ind'. rewrite Forall_forall in IH. simpl. intros ND x y c H1 H2.
  inversion ND as [|? ? Nr NDts]; subst.
  apply in_flat_map in H1 as (t1 & Ht1 & H1). apply in_flat_map in H2 as (t2 & Ht2 & H2).
  assert (C1 : In c (nodes t1)) by (destruct H1 as [[= <- <-]|H1]; [apply root_nodes|eapply tedges_nodes; eauto]).
  assert (C2 : In c (nodes t2)) by (destruct H2 as [[= <- <-]|H2]; [apply root_nodes|eapply tedges_nodes; eauto]).
  pose proof (flat_map_NoDup_uniq nodes ts t1 t2 c NDts Ht1 Ht2 C1 C2) as ->.
  pose proof (flat_map_NoDup_part nodes ts t2 NDts Ht2) as ND2.
  destruct H1 as [[= <- <-]|H1], H2 as [H2|H2].
  - congruence.
  - exfalso. eapply tedges_child; eauto.
  - injection H2 as <- <-. exfalso. eapply tedges_child; eauto.
  - eapply IH; eauto.
Qed.

Lemma tedges_anti t : NoDup (nodes t) -> forall x c, In (x, c) (tedges t) -> ~ In (c, x) (tedges t).
Proof.
  induction t as [r ts IH] using rtree_ind'. rewrite Forall_forall in IH. simpl. intros ND x c H1 H2.
  inversion ND as [|? ? Nr NDts]; subst.
  apply in_flat_map in H1 as (t1 & Ht1 & H1). apply in_flat_map in H2 as (t2 & Ht2 & H2).
  assert (C1 : In c (nodes t1)) by (destruct H1 as [[= <- <-]|H1]; [apply root_nodes|eapply tedges_nodes; eauto]).
  assert (C2 : In x (nodes t2)) by (destruct H2 as [[= <- <-]|H2]; [apply root_nodes|eapply tedges_nodes; eauto]).
  destruct H1 as [H1|H1].
  - injection H1 as <- <-. apply Nr. apply in_flat_map; eauto.
  - destruct H2 as [H2|H2].
    + injection H2 as <- <-. apply Nr. apply in_flat_map; eauto.
    + assert (t1 = t2).
      { apply (flat_map_NoDup_uniq nodes ts t1 t2 c); auto. apply (tedges_nodes t2 c x H2). }
      subst. eapply IH; eauto. eapply flat_map_NoDup_part; eauto.
Qed.

Lemma NoDup_app_intro {A} (l1 l2 : list A) : NoDup l1 -> NoDup l2 -> (forall x, In x l1 -> ~ In x l2) -> NoDup (l1 ++ l2).
Proof.
  induction l1 as [|x l1 IH]; simpl; intros N1 N2 H; auto. inversion N1; subst. constructor.
  - rewrite in_app_iff. intros [?|?]; auto. apply (H x); auto.
  - apply IH; auto.
Qed.

Lemma tedges_NoDup t : NoDup (nodes t) -> NoDup (tedges t).
Proof.
  induction t as [r ts IH] using rtree_ind'. rewrite Forall_forall in IH. simpl. intros ND.
  inversion ND as [|? ? Nr NDts]; subst.
  assert (K : forall t, In t ts -> NoDup ((r, root t) :: tedges t)).
  { intros t Ht. constructor.
    - intros H. apply Nr. apply in_flat_map. exists t. split; auto. apply (tedges_nodes t r (root t) H).
    - apply IH; auto. eapply flat_map_NoDup_part; eauto. }
  clear IH ND Nr. induction ts as [|t ts IHt]; simpl; [constructor|].
  simpl in NDts. rewrite app_comm_cons. apply NoDup_app_intro.
  - apply K. left; auto.
  - apply IHt.
    + clear -NDts. induction (nodes t); simpl in *; auto. inversion NDts; auto.
    + intros u Hu. apply K. right; auto.
  - intros [x c] H1 H2. apply in_flat_map in H2 as (t2 & Ht2 & H2).
    assert (C1 : In c (nodes t)) by (destruct H1 as [[= <- <-]|H1]; [apply root_nodes|eapply tedges_nodes; eauto]).
    assert (C2 : In c (nodes t2)) by (destruct H2 as [[= <- <-]|H2]; [apply root_nodes|eapply tedges_nodes; eauto]).
    assert (C3 : In c (flat_map nodes ts)) by (apply in_flat_map; eauto).
    clear -NDts C1 C3. induction (nodes t) as [|z zs IHz]; simpl in *; [tauto|].
    inversion NDts; subst. destruct C1 as [->|C1]; auto. apply H1, in_app_iff; auto.
Qed.

Lemma NoDup_map_in {A B} (f : A -> B) l :
  NoDup l -> (forall x y, In x l -> In y l -> f x = f y -> x = y) -> NoDup (map f l).
Proof.
  induction 1 as [|x l Nx ND IH]; simpl; intros H; constructor.
  - intros Hx. apply in_map_iff in Hx as (y & E & Hy). apply Nx. rewrite (H x y); auto.
  - apply IH. intros; apply H; auto.
Qed.

(** Every adjacency between nodes of the tree is one of its edges. *)
Lemma tedges_cover nb t : forall p, rooted nb p t -> forall u w, In u (nodes t) -> In w (nodes t) ->
  ~ (exists q, p = Some q /\ In q (nodes t)) ->
  NoDup (nodes t) -> In w (nb u) -> In (u, w) (tedges t) \/ In (w, u) (tedges t).
Proof.
  induction t as [x ts IH] using rtree_ind'. rewrite Forall_forall in IH. intros p HR u w Hu Hw Np ND Hn.
  apply rooted_inv in HR as [P F]. rewrite Forall_forall in F. simpl in *.
  inversion ND as [|? ? Nx NDts]; subst.
  destruct Hu as [<-|Hu].
  - left. apply (Permutation_in _ P) in Hn. apply in_app_iff in Hn as [Hn|Hn].
    + destruct p as [q|]; simpl in Hn; [|tauto]. destruct Hn as [->|[]]. exfalso. apply Np. eauto.
    + apply in_map_iff in Hn as (t & <- & Ht). apply in_flat_map. exists t. split; auto. left; auto.
  - apply in_flat_map in Hu as (t & Ht & Hu).
    destruct (rooted_nb nb t (Some x) u w (F t Ht) Hu Hn) as [Hw2|[-> [= <-]]].
    + destruct (IH t Ht (Some x) (F t Ht) u w Hu Hw2) as [H|H]; auto.
      * intros (q & [= <-] & Hq). apply Nx. apply in_flat_map; eauto.
      * eapply flat_map_NoDup_part; eauto.
      * left. apply in_flat_map. exists t. split; auto. right; auto.
      * right. apply in_flat_map. exists t. split; auto. right; auto.
    + right. apply in_flat_map. exists t. split; auto. left; auto.
Qed.

Lemma tedges_adj nb t p x c : rooted nb p t -> In (x, c) (tedges t) -> In c (nb x).
Proof.
  revert p x c. induction t as [r ts IH] using rtree_ind'. rewrite Forall_forall in IH. intros p x c HR H.
  apply rooted_inv in HR as [P F]. rewrite Forall_forall in F. simpl in H.
  apply in_flat_map in H as (t & Ht & [[= <- <-]|H]).
  - apply (Permutation_in _ (Permutation_sym P)), in_app_iff. right. apply in_map; auto.
  - eapply IH; eauto.
Qed.

Lemma belief_prod jt F G t a : belief jt F G t a =
  Qprod (fun i => F i a) (nodes t) * Qprod (fun e => / G (sepn jt (fst e) (snd e)) a) (tedges t).
Proof.
  induction t as [x ts IH] using rtree_ind'. rewrite Forall_forall in IH.
  cbn [belief nodes tedges]. cbn [Qprod fold_right]. fold (Qprod (fun i => F i a) (flat_map nodes ts)).
  rewrite !Qprod_flat_map.
  rewrite (Qprod_ext _ (fun t => / G (sepn jt x (root t)) a * (Qprod (fun i => F i a) (nodes t) *
             Qprod (fun e => / G (sepn jt (fst e) (snd e)) a) (tedges t))) ts).
  2:{ intros t Ht. rewrite IH; auto. }
  rewrite (Qprod_ext (fun x0 : rtree => Qprod (fun e => / G (sepn jt (fst e) (snd e)) a) ((x, root x0) :: tedges x0))
            (fun t => / G (sepn jt x (root t)) a * Qprod (fun e => / G (sepn jt (fst e) (snd e)) a) (tedges t)) ts).
  2:{ intros t Ht. reflexivity. }
  rewrite !Qprod_mul. ring.
Qed.

(** ** Dictionary of assigned nodes *)
Definition asg_get {A} (asg : list (nat * list A)) (i : nat) : list A :=
  match dget Nat.eqb asg i with Some l => l | None => [] end.

Lemma asg_prod {A} (g : A -> Qc) (asg : list (nat * list A)) l :
  NoDup (dkeys asg) -> NoDup l -> incl (dkeys asg) l ->
  Qprod (fun i => Qprod g (asg_get asg i)) l = Qprod g (flat_map snd asg).
Proof.
  revert l. induction asg as [|[c ns] asg IH]; intros l N1 N2 I; simpl.
  - transitivity (Qprod (fun _ : nat => 1) l); [apply Qprod_ext; reflexivity|apply Qprod_one].
  - inversion N1 as [|? ? Nc N1']; subst.
    assert (Hc : In c l) by (apply I; left; auto).
    destruct (Qprod_split (fun i => Qprod g (asg_get ((c, ns) :: asg) i)) l c N2 Hc) as (l' & P & Nl & E).
    rewrite E, Qprod_app. f_equal.
    + unfold asg_get. simpl. rewrite Nat.eqb_refl. auto.
    + rewrite <- (IH l'); auto.
      * apply Qprod_ext. intros i Hi. unfold asg_get. simpl.
        destruct (Nat.eqb_spec i c); [subst; contradiction|]. auto.
      * apply (Permutation_NoDup P) in N2. inversion N2; auto.
      * intros i Hi. assert (H : In i l) by (apply I; right; auto). apply (Permutation_in _ P) in H.
        destruct H as [<-|H]; auto. contradiction.
Qed.

(** ** Well-formed networks *)

(** The domain of a node's variable; any non-empty domain elsewhere. *)
Definition vdom (b : bbn) (v : var) : list value :=
  if smem v (map nvar (bnodes b)) then domain_of b v else [LInt 0].

Record wf_bbn (b : bbn) : Prop := {
  wf_topo : topo (bnodes b);
  wf_ne : bnodes b <> [];
  wf_conn : connected (bnodes b);
  wf_args : forall n v, In n (bnodes b) -> In v (fargs (nfac n)) <-> In v (family n);
  wf_dom : forall n, In n (bnodes b) -> domain_of b (nvar n) <> [] /\ NoDup (domain_of b (nvar n));
  wf_fun : forall n vals, In n (bnodes b) ->
             Forall2 (fun x v => In x (domain_of b v)) vals (fargs (nfac n)) ->
             exists q, ffun (nfac n) vals = Ok q /\ 0 <= q
}.

(** The value of a node's function, evidence included. *)
Definition pval (n : bnode) (a : assign) : Qc :=
  match ffun (nfac n) (map a (fargs (nfac n))) with Ok q => q | Err _ => 0 end.

Definition evid (ev : list (var * value)) (n : bnode) (a : assign) : Qc :=
  match dget String.eqb ev (nvar n) with
  | None => 1
  | Some x => if label_eqb (a (nvar n)) x then 1 else 0
  end.

Definition wval (ev : list (var * value)) (n : bnode) (a : assign) : Qc := pval n a * evid ev n a.

Definition jointf (ev : list (var * value)) (ns : list bnode) (a : assign) : Qc :=
  Qprod (fun n => wval ev n a) ns.

Lemma nth_clf L i : nth i L [] = clf L i.
Proof. reflexivity. Qed.

Lemma variable_names_In v c : In v (variable_names c) <-> In v c.
Proof. unfold variable_names, ssort. apply isort_In. Qed.

Lemma variable_names_perm c : Permutation c (variable_names c).
Proof. unfold variable_names, ssort. apply isort_perm. Qed.

Lemma subset_of_true a b : subset_of a b = true <-> incl a b.
Proof.
  unfold subset_of. rewrite forallb_forall. split; intros H x Hx.
  - apply smem_In; auto.
  - apply smem_In; auto.
Qed.

Section Query.
  Variables (sc : sched) (b : bbn).
  Hypothesis GS : good_sched sc.
  Hypothesis WF : wf_bbn b.
  Variable ev : list (var * value).
  Let ns := bnodes b.
  Let vars := map nvar ns.
  Let dom := vdom b.
  Variable jt : jtree.
  Hypothesis JO : join_ok ns jt.
  Let n := List.length (jcliques jt).
  Let m := List.length (jseps jt).
  Let cl := clf (jcliques jt).

  Lemma dom_node v : In v vars -> dom v = domain_of b v.
  Proof. intros H. unfold dom, vdom. apply smem_In in H. unfold vars, ns in H. rewrite H. auto. Qed.

  Lemma dom_ne v : dom v <> [].
  Proof.
    unfold dom, vdom. destruct (smem v (map nvar (bnodes b))) eqn:E; [|discriminate].
    apply smem_In in E. apply in_map_iff in E as (x & <- & Hx). apply (wf_dom b WF x Hx).
  Qed.

  Lemma dom_NoDup v : NoDup (dom v).
  Proof.
    unfold dom, vdom. destruct (smem v (map nvar (bnodes b))) eqn:E; [|repeat constructor; auto].
    apply smem_In in E. apply in_map_iff in E as (x & <- & Hx). apply (wf_dom b WF x Hx).
  Qed.

  Definition d0 : assign := fun v => hd (LInt 0) (dom v).

  Lemma d0_ok v : In (d0 v) (dom v).
  Proof. unfold d0. pose proof (dom_ne v). destruct (dom v); [congruence|left; auto]. Qed.

  Lemma all_keys_D vs : incl vs vars -> all_keys b vs = keysD dom vs.
  Proof.
    intros I. unfold all_keys, keysD. f_equal. apply map_ext_in. intros v Hv. rewrite dom_node; auto.
  Qed.

  Lemma cl_In i : (i < n)%nat -> In (cl i) (jcliques jt).
  Proof. intros. apply nth_In; auto. Qed.

  Lemma cl_NoDup i : (i < n)%nat -> NoDup (cl i).
  Proof. intros H. apply (jo_cliques _ _ JO), cl_In; auto. Qed.

  Lemma cl_vars i : (i < n)%nat -> incl (cl i) vars.
  Proof. intros H. apply (jo_cliques _ _ JO), cl_In; auto. Qed.

  Lemma clique_vars_In i v : In v (clique_vars jt i) <-> In v (cl i).
  Proof. apply variable_names_In. Qed.

  Lemma clique_vars_NoDup i : (i < n)%nat -> NoDup (clique_vars jt i).
  Proof. intros H. eapply Permutation_NoDup; [apply variable_names_perm|]. apply cl_NoDup; auto. Qed.

  Lemma sep_vars_In k v : In v (sep_vars jt k) <-> In v (lab jt k).
  Proof. apply variable_names_In. Qed.

  (** ** Node functions *)
  Lemma pval_ok x a : In x ns -> valid dom a ->
    ffun (nfac x) (map a (fargs (nfac x))) = Ok (pval x a) /\ 0 <= pval x a.
  Proof.
    intros Hx V. unfold pval. destruct (wf_fun b WF x (map a (fargs (nfac x))) Hx) as (q & E & Hq).
    - assert (I : incl (fargs (nfac x)) vars).
      { intros v Hv. apply (wf_args b WF x v Hx) in Hv. apply (topo_family ns x (wf_topo b WF) Hx); auto. }
      clear -I V. induction (fargs (nfac x)) as [|v vs IH]; simpl; constructor.
      + rewrite <- dom_node; [apply V|]. apply I; left; auto.
      + apply IH. intros w Hw. apply I; right; auto.
    - rewrite E. auto.
  Qed.

  Lemma pval_dep x : In x ns -> dep (family x) (pval x).
  Proof.
    intros Hx a c E. unfold pval. replace (map a (fargs (nfac x))) with (map c (fargs (nfac x))); auto.
    apply map_ext_in. intros v Hv. symmetry. apply E. apply (wf_args b WF); auto.
  Qed.

  Lemma evid_dep x : dep (family x) (evid ev x).
  Proof. intros a c E. unfold evid. rewrite (E (nvar x)); auto. left; auto. Qed.

  Lemma evid_nonneg x a : 0 <= evid ev x a.
  Proof. unfold evid. destruct (dget String.eqb ev (nvar x)) as [y|]; [destruct (label_eqb (a (nvar x)) y)|]; discriminate. Qed.

  Lemma wval_dep x : In x ns -> dep (family x) (wval ev x).
  Proof. intros Hx. apply dep_mul; [apply pval_dep; auto|apply evid_dep]. Qed.

  (** ** Assignment of nodes to cliques *)
  Lemma assign_clusters_ok : exists asg, assign_clusters jt ns = Ok asg /\
    NoDup (dkeys asg) /\ Permutation (flat_map snd asg) ns /\
    (forall c l, In (c, l) asg -> (c < n)%nat /\ forall x, In x l -> incl (family x) (cl c)).
  Proof.
    unfold assign_clusters.
    assert (G : forall l acc, incl l ns -> NoDup (dkeys acc) ->
      (forall c xs, In (c, xs) acc -> (c < n)%nat /\ forall x, In x xs -> incl (family x) (cl c)) ->
      exists asg, foldM (assign_one jt) l acc = Ok asg /\ NoDup (dkeys asg) /\
        Permutation (flat_map snd asg) (flat_map snd acc ++ l) /\
        (forall c xs, In (c, xs) asg -> (c < n)%nat /\ forall x, In x xs -> incl (family x) (cl c))).
    { induction l as [|x l IH]; intros acc I ND Hacc.
      - exists acc. rewrite app_nil_r. auto.
      - cbn [foldM]. unfold assign_one at 1.
        destruct (filter (fun i => subset_of (fargs (nfac x)) (nth i (jcliques jt) [])) (jorder jt)) as [|c cs] eqn:Ef.
        + exfalso. assert (Hx : In x ns) by (apply I; left; auto).
          destruct (jo_cover _ _ JO x Hx) as (i & Li & Hi).
          assert (In i []); [|auto]. rewrite <- Ef. apply filter_In. split.
          * apply (Permutation_in _ (Permutation_sym (jo_order _ _ JO))), in_seq. lia.
          * apply subset_of_true. intros v Hv. apply Hi. apply (wf_args b WF); auto.
        + assert (Hc : In c (c :: cs)) by (left; auto). rewrite <- Ef in Hc. apply filter_In in Hc as [Hc1 Hc2].
          apply subset_of_true in Hc2. assert (Hx : In x ns) by (apply I; left; auto).
          assert (Lc : (c < n)%nat).
          { apply (Permutation_in _ (jo_order _ _ JO)), in_seq in Hc1. fold n in Hc1. lia. }
          assert (Hfam : incl (family x) (cl c)).
          { intros v Hv. apply Hc2, (wf_args b WF); auto. }
          cbn [bind]. fold (asg_get acc c).
          destruct (IH (dset Nat.eqb acc c (asg_get acc c ++ [x]))) as (asg & E & ND' & P & H).
          * intros y Hy. apply I. right; auto.
          * apply (dset_NoDup _ Nat.eqb_spec); auto.
          * intros c' xs Hin. 
            apply (In_dget _ Nat.eqb_spec) in Hin; [|apply (dset_NoDup _ Nat.eqb_spec); auto].
            rewrite (dget_dset _ Nat.eqb_spec) in Hin. destruct (Nat.eqb_spec c' c) as [->|N].
            -- injection Hin as <-. split; auto. intros y Hy. apply in_app_iff in Hy as [Hy|[<-|[]]]; auto.
               unfold asg_get in Hy. destruct (dget Nat.eqb acc c) eqn:G; [|destruct Hy].
               apply (dget_In _ Nat.eqb_spec) in G. apply (Hacc c l0); auto.
            -- apply (dget_In _ Nat.eqb_spec) in Hin. apply Hacc; auto.
          * exists asg. split; auto. split; auto. split; auto.
            rewrite P. transitivity ((flat_map snd acc ++ [x]) ++ l); [|rewrite <- app_assoc; auto].
            apply Permutation_app_tail. clear -ND. unfold asg_get.
            induction acc as [|[k w] acc IHa]; simpl; auto. inversion ND; subst.
            destruct (Nat.eqb_spec c k) as [->|N]; simpl.
            -- rewrite <- !app_assoc. apply Permutation_app_head. simpl. apply Permutation_cons_append.
            -- rewrite <- app_assoc. apply Permutation_app_head. apply IHa; auto. }
    destruct (G ns [] (incl_refl _)) as (asg & E & ND & P & H).
    - constructor.
    - intros c xs [].
    - exists asg. auto.
  Qed.

  Section Init.
  Variable asg : list (nat * list bnode).
  Hypothesis NDasg : NoDup (dkeys asg).
  Hypothesis Pasg : Permutation (flat_map snd asg) ns.
  Hypothesis Hasg : forall c l, In (c, l) asg -> (c < n)%nat /\ forall x, In x l -> incl (family x) (cl c).

  Definition tab (i : nat) (f : assign -> Qc) : table := ctab dom (clique_vars jt i) f d0.

  Lemma tab_ext i f g : (i < n)%nat -> (forall a, valid dom a -> f a = g a) -> tab i f = tab i g.
  Proof.
    intros Li E. unfold tab, ctab. apply map_ext_in. intros k Hk.
    destruct (keysD_In dom _ k Hk d0 d0_ok (clique_vars_NoDup i Li)) as (_ & V & _). rewrite E; auto.
  Qed.

  Lemma entry_product_ok X a xs : incl (flat_map family xs) X -> incl xs ns -> valid dom a ->
    entry_product (key_of X a) xs = Ok (Qprod (fun x => pval x a) xs).
  Proof.
    intros I Ix V. unfold entry_product.
    assert (G : forall acc, foldM (fun acc x => do p <- call_factor (key_of X a) (nfac x); Ok (acc * p)) xs acc
                = Ok (acc * Qprod (fun x => pval x a) xs)).
    { induction xs as [|x xs IH]; intros acc; cbn [foldM Qprod fold_right].
      - f_equal. ring.
      - unfold call_factor at 1. rewrite (mapM_ok_intro _ (fargs (nfac x)) a).
        + cbn [bind]. assert (Hx : In x ns) by (apply Ix; left; auto).
          rewrite (proj1 (pval_ok x a Hx V)). cbn [bind]. rewrite IH.
          * f_equal. unfold Qprod. ring.
          * intros v Hv. apply I. cbn [flat_map]. apply in_app_iff. auto.
          * intros y Hy. apply Ix. right; auto.
        + intros v Hv. assert (Hx : In x ns) by (apply Ix; left; auto).
          apply (wf_args b WF x v Hx) in Hv.
          assert (HX : In v X) by (apply I; cbn [flat_map]; apply in_app_iff; left; auto).
          pose proof (ov_key_of X a d0 v HX) as E. unfold ov in E.
          destruct (dget String.eqb (key_of X a) v) eqn:G; [congruence|].
          apply (dget_None _ String.eqb_spec) in G. exfalso. apply G. unfold dkeys, key_of. rewrite map_map. simpl.
          rewrite map_id. auto. }
    rewrite G. f_equal. ring.
  Qed.

  Lemma clique_table_ok c xs : In (c, xs) asg ->
    clique_table b (clique_vars jt c) xs = Ok (tab c (fun a => Qprod (fun x => pval x a) xs)).
  Proof.
    intros H. destruct (Hasg c xs H) as [Lc Hf]. unfold clique_table, tab, ctab.
    rewrite all_keys_D.
    2:{ intros v Hv. apply clique_vars_In in Hv. apply (cl_vars c); auto. }
    apply mapM_ok_intro. intros k Hk.
    destruct (keysD_In dom _ k Hk d0 d0_ok (clique_vars_NoDup c Lc)) as (E & V & _).
    rewrite E at 1. rewrite entry_product_ok; auto.
    - intros v Hv. apply in_flat_map in Hv as (x & Hx & Hv). apply clique_vars_In. eapply Hf; eauto.
    - intros x Hx. apply (Permutation_in _ Pasg). apply in_flat_map. exists (c, xs); auto.
  Qed.

  Definition c0 : nat -> table := fun i => map (fun k => (k, 1)) (all_keys b (clique_vars jt i)).

  Lemma init_tables : exists c1,
    foldM (fun c an => do t <- clique_table b (clique_vars jt (fst an)) (snd an); Ok (updn c (fst an) t)) asg c0 = Ok c1 /\
    forall i, (i < n)%nat -> c1 i = tab i (fun a => Qprod (fun x => pval x a) (asg_get asg i)).
  Proof.
    assert (G : forall l c, incl l asg -> NoDup (dkeys l) -> exists c1,
      foldM (fun c an => do t <- clique_table b (clique_vars jt (fst an)) (snd an); Ok (updn c (fst an) t)) l c = Ok c1 /\
      forall i, (i < n)%nat -> c1 i = match dget Nat.eqb l i with
         | Some xs => tab i (fun a => Qprod (fun x => pval x a) xs) | None => c i end).
    { induction l as [|[c xs] l IH]; intros cc I ND.
      - exists cc. split; auto.
      - cbn [foldM fst snd]. rewrite clique_table_ok by (apply I; left; auto). cbn [bind].
        inversion ND as [|? ? Nc ND']; subst.
        destruct (IH (updn cc c (tab c (fun a => Qprod (fun x => pval x a) xs)))) as (c1 & E & H); auto.
        { intros y Hy. apply I. right; auto. }
        exists c1. split; auto. intros i Li. rewrite H by auto. cbn [dget].
        destruct (Nat.eqb_spec i c) as [->|N].
        + assert (Hn : dget Nat.eqb l c = None) by (apply (dget_None _ Nat.eqb_spec); auto).
          rewrite Hn. apply updn_same.
        + destruct (dget Nat.eqb l i); auto. apply updn_other; auto. }
    destruct (G asg c0 (incl_refl _) NDasg) as (c1 & E & H). exists c1. split; auto.
    intros i Li. rewrite H by auto. unfold asg_get. destruct (dget Nat.eqb asg i) eqn:Ei; auto.
    unfold c0, tab, ctab. rewrite all_keys_D.
    - apply map_ext. intros k. reflexivity.
    - intros v Hv. apply clique_vars_In in Hv. apply (cl_vars i); auto.
  Qed.

  Lemma encode_ok i x f : (i < n)%nat -> In (nvar x) (cl i) ->
    encode_evidence ev x (tab i f) = tab i (fun a => f a * evid ev x a).
  Proof.
    intros Li Hx. unfold encode_evidence, evid. destruct (dget String.eqb ev (nvar x)) as [y|] eqn:E.
    - unfold tab, ctab. rewrite map_map. apply map_ext_in. intros k Hk. cbn [fst snd].
      destruct (keysD_In dom _ k Hk d0 d0_ok (clique_vars_NoDup i Li)) as (Ek & V & _).
      assert (Ex : existsb (fun vv => String.eqb (fst vv) (nvar x) && negb (label_eqb (snd vv) y)) k
                   = negb (label_eqb (ov k d0 (nvar x)) y)).
      { rewrite Ek at 1. generalize (ov k d0). intros a.
        assert (HX : In (nvar x) (clique_vars jt i)) by (apply clique_vars_In; auto).
        clear -HX. destruct (negb (label_eqb (a (nvar x)) y)) eqn:N.
        - apply existsb_exists. exists (nvar x, a (nvar x)). split.
          + unfold key_of. apply in_map_iff. eauto.
          + simpl. rewrite String.eqb_refl, N. auto.
        - apply not_true_is_false. intros H. apply existsb_exists in H as (e & He & H).
          apply in_map_iff in He as (v & <- & Hv). simpl in H. apply andb_true_iff in H as [H1 H2].
          apply String.eqb_eq in H1. subst v. congruence. }
      rewrite Ex. destruct (label_eqb (ov k d0 (nvar x)) y); simpl; f_equal; ring.
    - apply tab_ext; auto. intros a _. ring.
  Qed.

  Lemma encode_fold c xs f cc : (c < n)%nat -> (forall x, In x xs -> In (nvar x) (cl c)) -> cc c = tab c f ->
    let r := fold_left (fun c' x => updn c' c (encode_evidence ev x (c' c))) xs cc in
    r c = tab c (fun a => f a * Qprod (fun x => evid ev x a) xs) /\ forall i, i <> c -> r i = cc i.
  Proof.
    intros Lc. revert f cc. induction xs as [|x xs IH]; intros f cc Hx E; simpl.
    - split; auto. rewrite E. apply tab_ext; auto. intros; ring.
    - destruct (IH (fun a => f a * evid ev x a) (updn cc c (encode_evidence ev x (cc c)))) as [H1 H2].
      + intros; apply Hx; right; auto.
      + rewrite updn_same, E. apply encode_ok; auto. apply Hx; left; auto.
      + split.
        * rewrite H1. apply tab_ext; auto. intros a _. cbn [Qprod fold_right]. unfold Qprod. ring.
        * intros i Ni. rewrite H2 by auto. apply updn_other; auto.
  Qed.

  Definition F0 (i : nat) (a : assign) : Qc := Qprod (fun x => wval ev x a) (asg_get asg i).

  Lemma asg_get_In i x : In x (asg_get asg i) -> (i < n)%nat /\ incl (family x) (cl i) /\ In x ns.
  Proof.
    unfold asg_get. destruct (dget Nat.eqb asg i) eqn:E; [|intros []]. intros Hx.
    apply (dget_In _ Nat.eqb_spec) in E. destruct (Hasg i l E) as [L H]. split; auto. split; auto.
    apply (Permutation_in _ Pasg), in_flat_map. exists (i, l); auto.
  Qed.

  Lemma init_ok : exists s0, initialize_potentials b jt asg ev = Ok s0 /\ marked s0 = [] /\
    (forall i, (i < n)%nat -> cpot s0 i = tab i (F0 i)) /\
    (forall k, (k < m)%nat -> rep dom (sep_vars jt k) (spot s0 k) (fun _ => 1)).
  Proof.
    destruct init_tables as (c1 & E & Hc1). unfold initialize_potentials.
    fold c0. rewrite E. cbn [bind]. eexists. split; [reflexivity|]. cbn [marked cpot spot]. split; auto. split.
    - set (c2 := match ev with [] => c1 | _ => _ end).
      assert (H : forall i, (i < n)%nat ->
        fold_left (fun c an => fold_left (fun c x => updn c (fst an) (encode_evidence ev x (c (fst an)))) (snd an) c) asg c1 i
        = tab i (F0 i)).
      { assert (G : forall l cc, incl l asg -> NoDup (dkeys l) ->
          (forall i, (i < n)%nat -> cc i = tab i (fun a => Qprod (fun x => pval x a) (asg_get asg i) *
             Qprod (fun x => evid ev x a) (match dget Nat.eqb l i with Some _ => [] | None => asg_get asg i end))) ->
          forall i, (i < n)%nat ->
            fold_left (fun c an => fold_left (fun c x => updn c (fst an) (encode_evidence ev x (c (fst an)))) (snd an) c) l cc i
            = tab i (fun a => Qprod (fun x => pval x a) (asg_get asg i) * Qprod (fun x => evid ev x a) (asg_get asg i))).
        { induction l as [|[c xs] l IH]; intros cc I ND H i Li.
          - simpl. rewrite H by auto. auto.
          - cbn [fold_left fst snd]. inversion ND as [|? ? Nc ND']; subst.
            destruct (Hasg c xs) as [Lc Hf]; [apply I; left; auto|].
            assert (Gx : asg_get asg c = xs).
            { unfold asg_get. rewrite (In_dget _ Nat.eqb_spec asg c xs); auto. apply I; left; auto. }
            destruct (encode_fold c xs (fun a => Qprod (fun x => pval x a) (asg_get asg c)) cc Lc) as [H1 H2].
            + intros x Hx. apply (Hf x Hx). left; auto.
            + rewrite H by auto. cbn [dget]. rewrite Nat.eqb_refl. apply tab_ext; auto. intros a _.
              cbn [Qprod fold_right]. unfold Qprod. ring.
            + apply IH; auto.
              * intros y Hy. apply I. right; auto.
              * intros j Lj. destruct (Nat.eq_dec j c) as [->|N].
                -- rewrite H1. assert (Hn : dget Nat.eqb l c = None) by (apply (dget_None _ Nat.eqb_spec); auto).
                   rewrite Hn, Gx. auto.
                -- rewrite H2 by auto. rewrite H by auto. cbn [dget].
                   destruct (Nat.eqb_spec j c); [contradiction|]. auto. }
        intros i Li. rewrite (G asg c1 (incl_refl _) NDasg); auto.
        - apply tab_ext; auto. intros a _. unfold F0, wval. rewrite Qprod_mul. auto.
        - intros j Lj. rewrite Hc1 by auto. apply tab_ext; auto. intros a _.
          unfold asg_get. destruct (dget Nat.eqb asg j); cbn [Qprod fold_right]; unfold Qprod; simpl; ring. }
      intros i Li. unfold c2. destruct ev as [|e ev'] eqn:Ev; [|apply H; auto].
      rewrite Hc1 by auto. apply tab_ext; auto. intros a _. unfold F0. rewrite Ev. apply Qprod_ext.
      intros x _. unfold wval, evid. simpl. ring.
    - intros k Lk a Ha.
      assert (Hn : exists s, nth_error (jseps jt) k = Some s).
      { destruct (nth_error (jseps jt) k) eqn:E'; eauto. apply nth_error_None in E'. fold m in E'. lia. }
      destruct Hn as (s & Hs).
      assert (I : incl (sep_vars jt k) vars).
      { intros v Hv. apply sep_vars_In in Hv. unfold lab in Hv. rewrite Hs in Hv.
        destruct (all_sepsets_In _ _ (jo_seps _ _ JO s (nth_error_In _ _ Hs))) as (L1 & L2 & El & _).
        rewrite El in Hv. apply inter_In in Hv as [Hv _]. apply (cl_vars (ssx s)); auto. unfold n. lia. }
      assert (NDk : forall l, NoDup l -> dkeys (map (fun k : key => (k, 1)) l) = l).
      { intros l _. unfold dkeys. rewrite map_map. simpl. apply map_id. }
      apply (In_dget _ key_eqb_spec).
      + unfold dkeys. rewrite map_map. simpl. rewrite map_id. rewrite all_keys_D by auto.
        apply keysD_NoDup. intros; apply dom_NoDup.
      + apply in_map_iff. exists (key_of (sep_vars jt k) a). split; auto. rewrite all_keys_D by auto.
        apply key_of_In. auto.
  Qed.

  Lemma init_FInv : FInv dom jt (jointf ev ns) [] F0 (fun _ _ => 1).
  Proof.
    constructor.
    - intros i Li. unfold F0. apply dep_prod. intros x Hx. apply asg_get_In in Hx as (_ & I & Hx).
      eapply dep_incl; [exact I|]. apply wval_dep; auto.
    - intros k Lk a c E. auto.
    - intros i a Li V. unfold F0. apply Qprod_nonneg. intros x Hx. apply asg_get_In in Hx as (_ & I & Hx).
      apply Qc_mul_nonneg; [apply pval_ok; auto|apply evid_nonneg].
    - intros. discriminate.
    - intros k s a _ _ Z. discriminate Z.
    - intros a V. rewrite (Qprod_ext (fun _ => / 1) (fun _ => 1)), Qprod_one.
      2:{ intros. apply Qc_is_canon. reflexivity. }
      unfold F0. rewrite (asg_prod (fun x => wval ev x a) asg (seq 0 (List.length (jcliques jt)))); auto.
      + rewrite (Qprod_perm _ _ _ Pasg). unfold jointf. ring.
      + apply seq_NoDup.
      + intros i Hi. apply in_map_iff in Hi as ([c l] & <- & Hi). apply Hasg in Hi as [L _]. apply in_seq.
        simpl. unfold n in L. lia.
    - intros x y [].
    - intros x y k [].
  Qed.
  End Init.

  (** ** Propagation *)
  Definition PInv (M : list msg) (s : pstate) : Prop :=
    exists F G, FInv dom jt (jointf ev ns) M F G /\
      (forall i, (i < n)%nat -> cpot s i = tab i (F i)) /\
      (forall k, (k < m)%nat -> rep dom (sep_vars jt k) (spot s k) (G k)).

  Lemma rep_ext R t g g' : (forall a, valid dom a -> g a = g' a) -> rep dom R t g -> rep dom R t g'.
  Proof. intros E H a V. rewrite (H a V), E; auto. Qed.

  Lemma diff_perm i k a f : ext f ->
    sumover dom (filter (fun x => negb (smem x (sep_vars jt k))) (clique_vars jt i)) f a
    = sumover dom (diff (cl i) (lab jt k)) f a.
  Proof.
    intros Ef. apply sumover_perm; auto. unfold diff.
    rewrite (filter_ext_in (fun x => negb (smem x (sep_vars jt k))) (fun x => negb (smem x (lab jt k)))).
    - assert (P : Permutation (clique_vars jt i) (cl i)) by (symmetry; apply variable_names_perm).
      revert P. generalize (clique_vars jt i), (cl i). clear. intros l1 l2 P.
      induction P; simpl; auto.
      + destruct (negb (smem x (lab jt k))); auto.
      + destruct (negb (smem x (lab jt k))), (negb (smem y (lab jt k))); auto. apply perm_swap.
      + etransitivity; eauto.
    - intros v _. f_equal. destruct (smem v (sep_vars jt k)) eqn:E1, (smem v (lab jt k)) eqn:E2; auto.
      + apply smem_In, sep_vars_In, smem_In in E1. congruence.
      + apply smem_In, sep_vars_In, smem_In in E2. congruence.
  Qed.

  Lemma PInv_step M s x y : PInv M s -> allowed jt M x y ->
    exists s', pass_message jt x y s = Ok s' /\ marked s' = marked s /\ PInv ((x, y) :: M) s'.
  Proof.
    intros (F & G & I & HF & HG) A.
    destruct (nb_find jt x y (proj1 A)) as (k & Hk).
    destruct (edge_facts dom jt (jo_seps _ _ JO) x y k Hk) as (Lk & Lx & Ly & Nxy & Lab & _).
    fold n in Lx, Ly. fold m in Lk. fold cl in Lab.
    unfold pass_message. rewrite Hk.
    assert (Ix : incl (sep_vars jt k) (clique_vars jt x)).
    { intros v Hv. apply clique_vars_In, Lab, sep_vars_In; auto. }
    assert (Iy : incl (sep_vars jt k) (clique_vars jt y)).
    { intros v Hv. apply clique_vars_In, Lab, sep_vars_In; auto. }
    pose proof (f_depF _ _ _ _ _ _ I x Lx) as Dx.
    destruct (project_ok dom d0 d0_ok (clique_vars jt x) (sep_vars jt k) (F x)) as (new & E1 & _ & Rnew & _); auto.
    { apply clique_vars_NoDup; auto. }
    { eapply dep_incl; [|exact Dx]. intros v Hv. apply clique_vars_In; auto. }
    { intros; apply dom_NoDup. }
    rewrite (HF x Lx). unfold tab at 1. rewrite E1. cbn [bind].
    assert (Rnew' : rep dom (sep_vars jt k) new (sumover dom (diff (cl x) (lab jt k)) (F x))).
    { eapply rep_ext; [|exact Rnew]. intros a _. apply diff_perm. eapply dep_ext; eauto. }
    rewrite (HF y Ly). unfold tab at 1.
    rewrite (absorb_ok dom d0 d0_ok (clique_vars jt y) (sep_vars jt k) (F y) new (spot s k)
               (sumover dom (diff (cl x) (lab jt k)) (F x)) (G k)); auto.
    - cbn [bind]. eexists. split; [reflexivity|]. cbn [marked]. split; auto.
      exists (msgF dom jt F G x y k), (msgG dom jt F G x k). split; [|split].
      + eapply step_inv; eauto. apply (jo_seps _ _ JO).
      + intros i Li. cbn [cpot]. unfold msgF, updn. destruct (Nat.eqb_spec i y) as [->|N]; auto.
      + intros j Lj. cbn [spot]. unfold msgG, updn. destruct (Nat.eqb_spec j k) as [->|N]; auto.
    - apply clique_vars_NoDup; auto.
    - intros a V Z. eapply supp_both; eauto. apply (jo_seps _ _ JO).
  Qed.

  Lemma conn_nodes i j : (i < n)%nat -> (conn (map ends (jseps jt)) i j <-> (j < n)%nat).
  Proof.
    intros Li. split.
    - intros C. clear -C JO Li. revert Li. induction C as [i|i u j A C IH]; auto. intros Li. apply IH.
      assert (H : In u (seq 0 (List.length (jcliques jt)))).
      { destruct A as [A|A]; apply (jt_edges _ _ _ (jo_tree _ _ JO)) in A; tauto. }
      apply in_seq in H. unfold n. lia.
    - intros Lj. apply (jt_conn _ _ _ (jo_tree _ _ JO)); apply in_seq; unfold n in *; lia.
  Qed.

  Lemma rtree_at x : (x < n)%nat -> exists t, root t = x /\ rooted (jt_nbrs (jseps jt)) None t /\
    NoDup (nodes t) /\ forall z, In z (nodes t) <-> (z < n)%nat.
  Proof.
    intros Lx. destruct (exists_rtree (List.length (map ends (jseps jt))) (map ends (jseps jt)) x (le_n _)
      (jt_forest _ _ _ (jo_tree _ _ JO))) as (t & R & HR & ND & H).
    exists t. split; auto. split; [|split; auto].
    - assert (E : forall i, nbE (map ends (jseps jt)) i = jt_nbrs (jseps jt) i) by (intros; symmetry; apply jt_nbrs_nbE).
      clear -HR E. revert HR. generalize (@None nat). induction t as [x ts IH] using rtree_ind'.
      rewrite Forall_forall in IH. intros p HR. apply rooted_inv in HR as [P F]. constructor.
      + rewrite <- E; auto.
      + rewrite Forall_forall in *. intros t Ht. apply IH; auto.
    - intros z. rewrite H. apply conn_nodes; auto.
  Qed.

  Lemma propagate_query s0 : PInv [] s0 -> marked s0 = [] ->
    exists s1 M, propagate sc jt s0 = Ok s1 /\ PInv M s1 /\
      forall u w, (u < n)%nat -> In w (jt_nbrs (jseps jt) u) -> In (u, w) M.
  Proof.
    intros I _. destruct (jorder jt) as [|x xs] eqn:Eo.
    { exfalso. pose proof (jo_order _ _ JO) as P. rewrite Eo in P. apply Permutation_nil in P.
      apply (jo_ne _ _ JO). clear -P. destruct (jcliques jt); [reflexivity|discriminate P]. }
    assert (Lx : (x < n)%nat).
    { assert (H : In x (seq 0 n)). { apply (Permutation_in _ (jo_order _ _ JO)). rewrite Eo. left; auto. }
      apply in_seq in H. lia. }
    destruct (rtree_at x Lx) as (t & R & HR & ND & Hn).
    assert (Hmark : forall M s mk, PInv M s -> PInv M (mkP (cpot s) (spot s) mk)).
    { intros M s mk (F & G & H). exists F, G. exact H. }
    assert (Hlen : (List.length (nodes t) <= List.length (jcliques jt))%nat).
    { replace (List.length (jcliques jt)) with (List.length (seq 0 n)) by apply seq_length.
      apply NoDup_incl_length; auto. intros z Hz. apply Hn in Hz. apply in_seq. lia. }
    assert (Hhd : hd_error (jorder jt) = Some x) by (rewrite Eo; auto).
    destruct (propagate_ok sc jt GS PInv Hmark PInv_step x t s0 HR R ND Hhd Hlen I) as (s1 & M & E & I1 & HM).
    exists s1, M. split; auto. split; auto. intros u w Lu Hw. apply HM; auto. apply Hn; auto.
  Qed.

  (** ** Reading off marginals *)
  Lemma belief_joint M F G t a : FInv dom jt (jointf ev ns) M F G ->
    rooted (jt_nbrs (jseps jt)) None t -> NoDup (nodes t) -> (forall z, In z (nodes t) <-> (z < n)%nat) ->
    valid dom a -> belief jt F G t a = jointf ev ns a.
  Proof.
    intros I HR ND Hn V. rewrite belief_prod, <- (f_joint _ _ _ _ _ _ I a V). f_equal.
    - apply Qprod_perm, NoDup_Permutation; auto; [apply seq_NoDup|]. intros z. rewrite Hn, in_seq. unfold n. lia.
    - rewrite <- (Qprod_map (fun e => sepn jt (fst e) (snd e)) (fun k => / G k a)).
      apply Qprod_perm, NoDup_Permutation; [|apply seq_NoDup|].
      + assert (Hf : forall x c, In (x, c) (tedges t) -> exists k, find_sep (jseps jt) x c 0 = Some k).
        { intros x c H. apply nb_find. eapply tedges_adj; eauto. }
        apply NoDup_map_in; [apply tedges_NoDup; auto|]. intros [x c] [y e] H1 H2 E. cbn [fst snd] in E.
        destruct (Hf x c H1) as (k & Hk). destruct (Hf y e H2) as (k' & Hk').
        unfold sepn in E. rewrite Hk, Hk' in E. subst k'.
        destruct (same_edge jt x c y e k Hk Hk') as [[-> ->]|[-> ->]]; auto.
        exfalso. eapply tedges_anti; eauto.
      + intros k. rewrite in_map_iff, in_seq. split.
        * intros ([x c] & E & H). cbn [fst snd] in E. destruct (nb_find jt x c (tedges_adj _ t None x c HR H)) as (k' & Hk).
          unfold sepn in E. rewrite Hk in E. subst k'.
          destruct (edge_facts dom jt (jo_seps _ _ JO) x c k Hk) as (Lk & _). lia.
        * intros [_ Lk]. simpl in Lk. destruct (nth_error (jseps jt) k) as [s|] eqn:Es.
          2:{ apply nth_error_None in Es. lia. }
          assert (Ad : adj (map ends (jseps jt)) (ssx s) (ssy s)).
          { left. apply in_map_iff. exists s. split; auto. eapply nth_error_In; eauto. }
          assert (Hx : In (ssx s) (nodes t) /\ In (ssy s) (nodes t)).
          { destruct (all_sepsets_In _ _ (jo_seps _ _ JO s (nth_error_In _ _ Es))) as (L1 & L2 & _).
            split; apply Hn; unfold n; lia. }
          destruct Hx as [Hx Hy].
          assert (Hnb : In (ssy s) (jt_nbrs (jseps jt) (ssx s))) by (rewrite jt_nbrs_nbE; apply nbE_adj; auto).
          assert (Huniq : forall x c, (x = ssx s /\ c = ssy s) \/ (x = ssy s /\ c = ssx s) -> sepn jt x c = k).
          { intros x c Hxc.
            assert (Hfs : exists k', find_sep (jseps jt) (ssx s) (ssy s) 0 = Some k') by (apply nb_find; auto).
            destruct Hfs as (k' & Hk').
            assert (E : sepn jt x c = k').
            { unfold sepn. destruct Hxc as [[-> ->]|[-> ->]]; [|rewrite find_sep_sym]; rewrite Hk'; auto. }
            rewrite E.
            (* two separators over the same pair would be a cycle *)
            apply find_sep_some in Hk' as (s' & _ & Hs' & He). rewrite Nat.sub_0_r in Hs'.
            destruct (Nat.eq_dec k' k) as [|Nk]; auto. exfalso.
            pose proof (jt_forest _ _ _ (jo_tree _ _ JO)) as Fo.
            clear -Es Hs' He Nk Fo. revert k k' Es Hs' Nk.
            assert (G2 : forall l k k' s s', forest (map ends l) -> nth_error l k = Some s -> nth_error l k' = Some s' ->
               (ends s' = (ssx s, ssy s) \/ ends s' = (ssy s, ssx s)) -> (k < k')%nat -> False).
            { induction l as [|r l IHl]; intros k k' s1 s2 Fo' H1 H2 He' Lt; [destruct k; discriminate|].
              cbn [map] in Fo'. change (ends r) with (ssx r, ssy r) in Fo'.
              inversion Fo' as [|a' b' E' FoT Nc]; subst. destruct k'; [lia|]. simpl in H2.
              destruct k.
              - simpl in H1. injection H1 as <-. apply Nc.
                apply conn_adj. apply nth_error_In in H2. destruct He' as [He'|He']; [left|right];
                rewrite <- He'; apply in_map; auto.
              - simpl in H1. eapply (IHl k k' s1 s2); eauto. lia. }
            intros k k' Es Hs' Nk. destruct (Nat.lt_total k k') as [L|[->|L]]; [| congruence |].
            - eapply (G2 (jseps jt) k k' s s'); eauto.
            - eapply (G2 (jseps jt) k' k s' s); eauto. unfold ends in *.
              destruct He as [[= -> ->]|[= -> ->]]; auto. }
          destruct (tedges_cover (jt_nbrs (jseps jt)) t None HR (ssx s) (ssy s) Hx Hy) as [H|H]; auto.
          { intros (q & Q & _). discriminate. }
          -- exists (ssx s, ssy s). split; auto. 
          -- exists (ssy s, ssx s). split; auto.
  Qed.

  Lemma clique_marginal M F G c a : FInv dom jt (jointf ev ns) M F G ->
    (forall u w, (u < n)%nat -> In w (jt_nbrs (jseps jt) u) -> In (u, w) M) ->
    (c < n)%nat -> valid dom a ->
    exists el, Permutation (cl c ++ el) vars /\ F c a = sumover dom el (jointf ev ns) a.
  Proof.
    intros I HM Lc V. destruct (rtree_at c Lc) as (t & R & HR & ND & Hn).
    assert (Inc : incl (nodes t) (seq 0 n)).
    { intros z Hz. apply Hn in Hz. apply in_seq. lia. }
    exists (elim jt t). split.
    - destruct (elim_spec jt cl_NoDup (jt_rip _ _ _ (jo_tree _ _ JO)) t None HR ND Inc) as [S1 S2].
      apply NoDup_Permutation.
      + apply NoDup_app_intro; auto; [apply cl_NoDup; auto|]. intros v Hv He. apply S1 in He. rewrite R in He. tauto.
      + apply (topo_NoDup ns (wf_topo b WF)).
      + intros v. rewrite in_app_iff, S1, R. unfold tvars. split.
        * intros [H|[H _]]; [apply (cl_vars c); auto|]. apply in_flat_map in H as (z & Hz & H). apply Hn in Hz.
          apply (cl_vars z); auto.
        * intros H. unfold vars in H. apply in_map_iff in H as (x & <- & Hx).
          destruct (in_dec String.string_dec (nvar x) (cl c)); auto. right. split; auto.
          destruct (jo_cover _ _ JO x Hx) as (i & Li & Hi). apply in_flat_map. exists i. split; [apply Hn; auto|].
          apply Hi. left; auto.
    - symmetry. rewrite <- R. rewrite <- (belief_sum dom jt cl_NoDup (jo_seps _ _ JO)
         (jointf ev ns) M F G I HM (jt_rip _ _ _ (jo_tree _ _ JO)) t None HR ND Inc a V).
      apply sumover_ext. intros e He Hd. symmetry. eapply belief_joint; eauto. eapply valid_part; eauto.
  Qed.

  Definition others (v : var) : list var := filter (fun w => negb (String.eqb w v)) vars.

  (** Sum of the joint over all other variables. *)
  Definition msum (v : var) (x : value) : Qc := sumover dom (others v) (jointf ev ns) (upd d0 v x).

  Lemma jointf_dep : dep vars (jointf ev ns).
  Proof.
    unfold jointf. apply dep_prod. intros x Hx. eapply dep_incl; [|apply wval_dep; auto].
    apply (topo_family ns x (wf_topo b WF) Hx).
  Qed.

  Lemma marginal_ok M s v : PInv M s ->
    (forall u w, (u < n)%nat -> In w (jt_nbrs (jseps jt) u) -> In (u, w) M) ->
    In v vars ->
    exists t, marginal jt s v = Ok t /\ NoDup (dkeys t) /\
      (forall e, In e (dkeys t) <-> exists x, In x (domain_of b v) /\ e = [(v, x)]) /\
      (forall x, In x (domain_of b v) -> dget key_eqb t [(v, x)] = Some (msum v x)).
  Proof.
    intros (F & G & I & HF & HG) HM Hv. unfold marginal.
    destruct (filter (fun i => smem v (nth i (jcliques jt) [])) (jorder jt)) as [|c cs] eqn:Ef.
    - exfalso. unfold vars in Hv. apply in_map_iff in Hv as (x & <- & Hx).
      destruct (jo_cover _ _ JO x Hx) as (i & Li & Hi).
      assert (In i []); [|auto]. rewrite <- Ef. apply filter_In. split.
      + apply (Permutation_in _ (Permutation_sym (jo_order _ _ JO))), in_seq. lia.
      + apply smem_In. apply Hi. left; auto.
    - assert (Hc : In c (c :: cs)) by (left; auto). rewrite <- Ef in Hc. apply filter_In in Hc as [Hc1 Hc2].
      apply smem_In in Hc2. rewrite nth_clf in Hc2. fold cl in Hc2.
      assert (Lc : (c < n)%nat).
      { apply (Permutation_in _ (jo_order _ _ JO)), in_seq in Hc1. fold n in Hc1. lia. }
      rewrite (HF c Lc). unfold tab.
      pose proof (f_depF _ _ _ _ _ _ I c Lc) as Dc.
      destruct (project_ok dom d0 d0_ok (clique_vars jt c) [v] (F c)) as (t & E & ND & R & K).
      { apply clique_vars_NoDup; auto. }
      { intros w [<-|[]]. apply clique_vars_In; auto. }
      { eapply dep_incl; [|exact Dc]. intros w Hw. apply clique_vars_In; auto. }
      { intros; apply dom_NoDup. }
      exists t. split; auto. split; auto. split.
      + intros e. rewrite K. split.
        * intros (a & Ha & ->). exists (a v). split; auto. rewrite <- dom_node by auto. auto.
        * intros (x & Hx & ->). exists (upd d0 v x). split.
          -- intros w. unfold upd. destruct (String.eqb_spec w v) as [->|N]; [rewrite dom_node; auto|apply d0_ok].
          -- simpl. rewrite upd_same. auto.
      + intros x Hx. assert (V : valid dom (upd d0 v x)).
        { intros w. unfold upd. destruct (String.eqb_spec w v) as [->|N]; [rewrite dom_node; auto|apply d0_ok]. }
        specialize (R (upd d0 v x) V). simpl in R. rewrite upd_same in R. rewrite R. f_equal.
        unfold msum.
        set (D := filter (fun y => negb (smem y [v])) (clique_vars jt c)).
        (* all sums share one elimination list *)
        destruct (rtree_at c Lc) as (tr & Rt & HR & NDt & Hn).
        assert (Inc : incl (nodes tr) (seq 0 n)).
        { intros z Hz. apply Hn in Hz. apply in_seq. lia. }
        assert (S : forall a, valid dom a -> F c a = sumover dom (elim jt tr) (jointf ev ns) a).
        { intros a Va. rewrite <- Rt. rewrite <- (belief_sum dom jt cl_NoDup (jo_seps _ _ JO)
            (jointf ev ns) M F G I HM (jt_rip _ _ _ (jo_tree _ _ JO)) tr None HR NDt Inc a Va).
          apply sumover_ext. intros e He Hd. eapply belief_joint; eauto. eapply valid_part; eauto. }
        rewrite (sumover_ext dom D (F c) (sumover dom (elim jt tr) (jointf ev ns))).
        2:{ intros e He Hd. apply S. eapply valid_part; eauto. }
        rewrite <- sumover_app. apply sumover_perm; [eapply dep_ext; apply jointf_dep|].
        destruct (elim_spec jt cl_NoDup (jt_rip _ _ _ (jo_tree _ _ JO)) tr None HR NDt Inc) as [S1 S2].
        assert (HD : forall w, In w D <-> In w (cl c) /\ w <> v).
        { intros w. unfold D. rewrite filter_In, negb_true_iff, smem_false, clique_vars_In. simpl.
          split; intros [? ?]; split; auto. intros [?|[]]; auto. }
        apply NoDup_Permutation.
        * apply NoDup_app_intro; auto.
          -- apply NoDup_filter, clique_vars_NoDup; auto.
          -- intros w Hw He. apply HD in Hw. apply S1 in He. rewrite Rt in He. tauto.
        * apply NoDup_filter. apply (topo_NoDup ns (wf_topo b WF)).
        * intros w. unfold others. rewrite in_app_iff, HD, S1, Rt, filter_In, negb_true_iff, String.eqb_neq.
          unfold tvars. split.
          -- intros [[H1 H2]|[H1 H2]].
             ++ split; auto. apply (cl_vars c); auto.
             ++ apply in_flat_map in H1 as (z & Hz & H1). apply Hn in Hz. split; [apply (cl_vars z); auto|].
                intros ->. auto.
          -- intros [H1 H2]. destruct (in_dec String.string_dec w (cl c)); auto. right. split; auto.
             unfold vars in H1. apply in_map_iff in H1 as (y & <- & Hy).
             destruct (jo_cover _ _ JO y Hy) as (i & Li & Hi). apply in_flat_map. exists i. split; [apply Hn; auto|].
             apply Hi. left; auto.
  Qed.
End Query.
