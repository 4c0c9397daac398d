(** * RTree: rooted views of a forest, and the message schedule of collect/distribute. *)
From Coq Require Import List Bool Arith Lia String Permutation.
From Verif Require Import Base BbnModel Forest Elim Triang Kruskal.
Import ListNotations.
Local Open Scope list_scope.

Inductive rtree := RNode (x : nat) (ts : list rtree).

Definition root (t : rtree) : nat := let (x, _) := t in x.
Definition kids (t : rtree) : list rtree := let (_, ts) := t in ts.

Section Ind.
  Variable P : rtree -> Prop.
  Hypothesis H : forall x ts, Forall P ts -> P (RNode x ts).
  Fixpoint rtree_ind' (t : rtree) : P t :=
    match t with
    | RNode x ts => H x ts ((fix go l : Forall P l :=
                               match l with
                               | [] => Forall_nil P
                               | t :: l' => Forall_cons t (rtree_ind' t) (go l')
                               end) ts)
    end.
End Ind.

Fixpoint nodes (t : rtree) : list nat :=
  match t with RNode x ts => x :: flat_map nodes ts end.

Definition olist {A} (o : option A) : list A := match o with Some x => [x] | None => [] end.

(** [t] is the part of the graph [nb] below its root, seen from the parent [p]. *)
Inductive rooted (nb : nat -> list nat) : option nat -> rtree -> Prop :=
| rooted_node p x ts :
    Permutation (nb x) (olist p ++ map root ts) ->
    Forall (rooted nb (Some x)) ts ->
    rooted nb p (RNode x ts).

Lemma root_nodes t : In (root t) (nodes t).
Proof. destruct t; simpl; auto. Qed.

Lemma rooted_inv nb p x ts : rooted nb p (RNode x ts) ->
  Permutation (nb x) (olist p ++ map root ts) /\ Forall (rooted nb (Some x)) ts.
Proof. intros H; inversion H; subst; auto. Qed.

Lemma rooted_nb nb t : forall p z u, rooted nb p t -> In z (nodes t) -> In u (nb z) ->
  In u (nodes t) \/ (z = root t /\ p = Some u).
Proof.
  induction t as [x ts IH] using rtree_ind'. intros p z u HR Hz Hu.
  apply rooted_inv in HR as [P F]. simpl in *. destruct Hz as [<-|Hz].
  - apply (Permutation_in _ P), in_app_iff in Hu. destruct Hu as [Hu|Hu].
    + destruct p; simpl in Hu; [|tauto]. destruct Hu as [<-|[]]. auto.
    + left; right. apply in_map_iff in Hu as (t & <- & Ht). apply in_flat_map. exists t.
      split; auto. apply root_nodes.
  - apply in_flat_map in Hz as (t & Ht & Hz). rewrite Forall_forall in IH, F.
    destruct (IH t Ht (Some x) z u (F t Ht) Hz Hu) as [H|[_ [= <-]]].
    + left; right. apply in_flat_map; eauto.
    + left; left; auto.
Qed.

(** ** The neighbours given by an edge list *)
Definition nbE (E : list edge) (i : nat) : list nat :=
  flat_map (fun e => if Nat.eqb (fst e) i then [snd e]
                     else if Nat.eqb (snd e) i then [fst e] else []) E.

Lemma jt_nbrs_nbE seps i : jt_nbrs seps i = nbE (map ends seps) i.
Proof. unfold jt_nbrs, nbE. induction seps as [|s seps IH]; simpl; auto. rewrite IH; auto. Qed.

Lemma nbE_adj E i j : In j (nbE E i) <-> adj E i j.
Proof.
  unfold nbE, adj. rewrite in_flat_map. split.
  - intros ([a b] & He & Hj). simpl in Hj. destruct (Nat.eqb_spec a i) as [->|N].
    + destruct Hj as [<-|[]]. auto.
    + destruct (Nat.eqb_spec b i) as [->|N2]; [|destruct Hj]. destruct Hj as [<-|[]]. auto.
  - intros [H|H].
    + exists (i, j). split; auto. simpl. rewrite Nat.eqb_refl. left; auto.
    + exists (j, i). split; auto. simpl. destruct (Nat.eqb_spec j i) as [->|N].
      * left; auto.
      * rewrite Nat.eqb_refl. left; auto.
Qed.

Definition avoid (x : nat) (e : edge) : bool := negb (Nat.eqb (fst e) x) && negb (Nat.eqb (snd e) x).
Definition del (x : nat) (E : list edge) : list edge := filter (avoid x) E.

Lemma del_incl x E : incl (del x E) E.
Proof. intros e He. apply filter_In in He. tauto. Qed.

Lemma forest_filter p E : forest E -> forest (filter p E).
Proof.
  induction 1 as [|a b E HF IH N]; simpl; [constructor|].
  destruct (p (a, b)); auto. constructor; auto. intros C. apply N.
  eapply conn_incl; [|exact C]. intros e He. apply filter_In in He; tauto.
Qed.

Lemma forest_noloop E a b : forest E -> In (a, b) E -> a <> b.
Proof.
  induction 1 as [|c d E HF IH N]; simpl; [tauto|].
  intros [[= -> ->]|H]; auto. intros ->. apply N. constructor.
Qed.

(** Two different incident edges lead to different components of the rest. *)
Lemma nbE_split E x : forest E -> forall y, In y (nbE E x) ->
  exists E1, Permutation E ((x, y) :: E1) \/ Permutation E ((y, x) :: E1).
Proof.
  intros HF y Hy. apply nbE_adj in Hy as [H|H]; apply in_split in H as (l1 & l2 & ->); exists (l1 ++ l2);
  [left|right]; symmetry; apply Permutation_middle.
Qed.

Lemma adj_swap E a b : adj E a b -> exists E1, (Permutation E ((a, b) :: E1) \/ Permutation E ((b, a) :: E1)).
Proof.
  intros [H|H]; apply in_split in H as (l1 & l2 & ->); exists (l1 ++ l2); [left|right];
  symmetry; apply Permutation_middle.
Qed.

Lemma forest_no_cycle E a b E1 :
  forest E -> Permutation E ((a, b) :: E1) \/ Permutation E ((b, a) :: E1) -> ~ conn E1 a b.
Proof.
  intros HF [P|P]; apply (forest_perm _ _ P) in HF; inversion HF; subst; auto.
  intros C. apply conn_sym in C. auto.
Qed.

Lemma nbE_perm E E' x : Permutation E E' -> Permutation (nbE E x) (nbE E' x).
Proof. intros P. unfold nbE. apply Permutation_flat_map; auto. Qed.

Lemma nbE_NoDup E x : forest E -> NoDup (nbE E x).
Proof.
  induction 1 as [|a b E HF IH N]; simpl; [constructor|].
  destruct (Nat.eqb_spec a x) as [->|Na]; simpl.
  - constructor; auto. intros H. apply nbE_adj in H. apply N. apply conn_adj; auto.
  - destruct (Nat.eqb_spec b x) as [->|Nb]; simpl; auto.
    constructor; auto. intros H. apply nbE_adj in H. apply N. apply conn_sym, conn_adj; auto.
Qed.

Lemma nbE_noself E x : forest E -> ~ In x (nbE E x).
Proof.
  intros HF H. apply nbE_adj in H. destruct H as [H|H]; eapply forest_noloop in H; eauto.
Qed.

Lemma nbrs_apart E x y z : forest E -> In y (nbE E x) -> In z (nbE E x) -> y <> z -> ~ conn (del x E) y z.
Proof.
  intros HF Hy Hz N C. apply nbE_adj in Hy, Hz.
  destruct (adj_swap E x y Hy) as (E1 & P). apply (forest_no_cycle E x y E1 HF P).
  assert (A : adj E1 x z).
  { assert (NL : x <> y /\ x <> z).
    { split; intros <-; [destruct Hy as [H|H]|destruct Hz as [H|H]]; eapply forest_noloop in H; eauto. }
    destruct P as [P|P]; (destruct Hz as [H|H]; [left|right]);
    apply (Permutation_in _ P) in H; (destruct H as [H|H]; [inversion H; subst; tauto|exact H]). }
  eapply conn_step; [exact A|]. apply conn_sym. eapply conn_incl; [|exact C].
  intros e He. apply filter_In in He as [He Av]. unfold avoid in Av.
  apply andb_true_iff in Av as [A1 A2]. rewrite negb_true_iff, Nat.eqb_neq in A1, A2.
  destruct P as [P|P]; apply (Permutation_in _ P) in He; destruct He as [<-|He]; simpl in *; auto; congruence.
Qed.

Lemma conn_avoid E x y z : conn (del x E) y z -> y <> x -> z <> x.
Proof.
  induction 1 as [|y u z A C IH]; auto. intros N. apply IH.
  destruct A as [A|A]; apply filter_In in A as [_ A]; unfold avoid in A; simpl in A;
  apply andb_true_iff in A as [A1 A2]; rewrite negb_true_iff, Nat.eqb_neq in A1, A2; auto.
Qed.

(** A path out of x starts with an edge and continues without x. *)
Lemma conn_first E x z : conn E x z -> z <> x -> exists y, adj E x y /\ conn (del x E) y z.
Proof.
  intros C. apply conn_sym in C. induction C as [z|z u x A C IH]; intros N; [congruence|].
  destruct (Nat.eq_dec u x) as [->|Nu].
  - exists z. split; [apply adj_sym; auto|constructor].
  - destruct (IH Nu) as (y & A' & C'). exists y. split; auto.
    eapply conn_trans; [exact C'|]. apply conn_adj.
    assert (NL : forall a b, a <> x -> b <> x -> In (a, b) E -> In (a, b) (del x E)).
    { intros a b Ha Hb Hab. apply filter_In. split; auto. unfold avoid. simpl.
      rewrite (proj2 (Nat.eqb_neq a x)), (proj2 (Nat.eqb_neq b x)); auto. }
    destruct A as [A|A]; [right|left]; apply NL; auto.
Qed.

Lemma nbE_del E x z : x <> z -> ~ In x (nbE E z) -> nbE (del x E) z = nbE E z.
Proof.
  intros N. induction E as [|[a b] E IH]; auto. cbn [nbE del filter flat_map fst snd].
  fold (nbE E z) (del x E). unfold avoid at 1. cbn [fst snd].
  destruct (Nat.eqb_spec a x), (Nat.eqb_spec b x), (Nat.eqb_spec a z), (Nat.eqb_spec b z);
    subst; cbn [negb andb app]; intros H; try congruence;
    try (exfalso; apply H; left; reflexivity);
    try (apply IH; intros Hx; apply H; simpl; auto; fail);
    cbn [nbE flat_map fst snd]; fold (nbE (del x E) z); rewrite IH by (intros Hx; apply H; simpl; auto);
    repeat match goal with |- context [Nat.eqb ?u ?v] => destruct (Nat.eqb_spec u v) end; try congruence; reflexivity.
Qed.

Lemma nbE_del_nbr E x z : forest E -> In x (nbE E z) -> Permutation (nbE E z) (x :: nbE (del x E) z).
Proof.
  intros HF H. apply NoDup_Permutation.
  - apply nbE_NoDup; auto.
  - constructor; [|apply nbE_NoDup, forest_filter; auto].
    intros Hx. apply nbE_adj in Hx. destruct Hx as [Hx|Hx]; apply filter_In in Hx as [_ Hx];
    unfold avoid in Hx; simpl in Hx; rewrite Nat.eqb_refl, ?andb_false_r in Hx; discriminate.
  - intros y. simpl. split.
    + intros Hy. destruct (Nat.eq_dec x y); auto. right. apply nbE_adj. apply nbE_adj in Hy.
      assert (z <> x). { intros ->. eapply nbE_noself; eauto. }
      destruct Hy as [Hy|Hy]; [left|right]; apply filter_In; split; auto; unfold avoid; simpl;
      apply andb_true_iff; split; rewrite negb_true_iff; apply Nat.eqb_neq; auto.
    + intros [<-|Hy]; auto. apply nbE_adj. apply nbE_adj in Hy.
      eapply adj_incl; [apply del_incl|exact Hy].
Qed.

(** Re-rooting below a removed node. *)
Lemma rooted_lift E x t : forest E ->
  forall p, rooted (nbE (del x E)) p t ->
  (forall z, In z (nodes t) -> z <> x) ->
  (forall z, In z (nodes t) -> In x (nbE E z) -> z = root t /\ p = None) ->
  NoDup (nodes t) ->
  rooted (nbE E) (match p with Some q => Some q | None => if in_dec Nat.eq_dec x (nbE E (root t)) then Some x else None end) t.
Proof.
  intros HF. induction t as [y ts IH] using rtree_ind'. intros p HR Nx Hx ND.
  apply rooted_inv in HR as [P F]. simpl in *. rewrite Forall_forall in IH, F.
  inversion ND as [|? ? Ny NDts]; subst.
  assert (Kids : Forall (rooted (nbE E) (Some y)) ts).
  { apply Forall_forall. intros t Ht.
    assert (Sub : forall z, In z (nodes t) -> In z (flat_map nodes ts)) by (intros; apply in_flat_map; eauto).
    apply (IH t Ht (Some y) (F t Ht)).
    - intros z Hz. apply Nx. right; auto.
    - intros z Hz Hzx. destruct (Hx z (or_intror (Sub z Hz)) Hzx) as [-> _]. exfalso; auto.
    - clear -NDts Ht. induction ts as [|u us IHu]; simpl in *; [tauto|].
      destruct Ht as [->|Ht].
      + clear -NDts. induction (nodes t); [constructor|]. simpl in *. inversion NDts; subst.
        constructor; auto. intros H; apply H1, in_app_iff; auto.
      + apply IHu; auto. clear -NDts. induction (nodes u); simpl in *; auto. inversion NDts; auto. }
  constructor; auto.
  destruct (in_dec Nat.eq_dec x (nbE E y)) as [I|I].
  - destruct (Hx y (or_introl eq_refl) I) as [_ ->]. simpl in *.
    rewrite (nbE_del_nbr E x y HF I). constructor. exact P.
  - rewrite <- (nbE_del E x y); auto.
    + destruct p; auto.
    + intros ->. eapply Nx; [left; eauto|auto].
Qed.

Lemma exists_rtree k : forall E x, List.length E <= k -> forest E ->
  exists t, root t = x /\ rooted (nbE E) None t /\ NoDup (nodes t) /\
            (forall z, In z (nodes t) <-> conn E x z).
Proof.
  induction k as [|k IH]; intros E x L HF.
  - destruct E; simpl in L; [|lia]. exists (RNode x []). simpl. split; auto. split.
    { constructor; simpl; auto. } split; [constructor; simpl; auto; constructor|].
    intros z. rewrite conn_nil. split; [intros [|[]]; auto|auto].
  - destruct (nbE E x) as [|y0 ys0] eqn:Enb.
    { exists (RNode x []). simpl. split; auto. split.
      { constructor; simpl; auto. rewrite Enb; auto. } split; [constructor; simpl; auto; constructor|].
      intros z. split; [intros [<-|[]]; constructor|]. intros C.
      destruct (Nat.eq_dec z x) as [->|N]; auto. destruct (conn_first E x z C N) as (y & A & _).
      apply nbE_adj in A. rewrite Enb in A. destruct A. }
    clear Enb y0 ys0.
    assert (Ld : forall y, In y (nbE E x) -> List.length (del x E) <= k).
    { intros y Hy. apply nbE_adj in Hy.
      assert (S (List.length (del x E)) <= List.length E); [|lia].
      assert (G : forall e, In e E -> avoid x e = false -> S (List.length (del x E)) <= List.length E).
      { clear. unfold del. induction E as [|f E IH]; simpl; [tauto|].
        assert (Lf : List.length (filter (avoid x) E) <= List.length E).
        { clear. induction E; simpl; auto. destruct (avoid x a); simpl; lia. }
        intros e [->|He] Av; [rewrite Av; lia|]. destruct (avoid x f); simpl; [|lia].
        specialize (IH e He Av). lia. }
      destruct Hy as [H|H]; apply (G _ H); unfold avoid; simpl; rewrite Nat.eqb_refl; simpl; auto.
      apply andb_false_r. }
    pose proof (nbE_NoDup E x HF) as NDn.
    pose proof (nbE_noself E x HF) as NS.
    assert (Ex : exists ts, map root ts = nbE E x /\ Forall (fun t =>
               rooted (nbE E) (Some x) t /\ NoDup (nodes t) /\
               (forall z, In z (nodes t) <-> conn (del x E) (root t) z)) ts).
    { assert (G : forall ys, incl ys (nbE E x) -> exists ts, map root ts = ys /\ Forall (fun t =>
               rooted (nbE E) (Some x) t /\ NoDup (nodes t) /\
               (forall z, In z (nodes t) <-> conn (del x E) (root t) z)) ts).
      { induction ys as [|y ys IHy]; intros I.
        - exists []. split; auto.
        - destruct IHy as (ts & Er & F); [intros z Hz; apply I; right; auto|].
          assert (Hy : In y (nbE E x)) by (apply I; left; auto).
          destruct (IH (del x E) y (Ld y Hy) (forest_filter _ _ HF)) as (t & Rt & HR & ND & HN).
          assert (Nyx : y <> x) by (intros ->; auto).
          exists (t :: ts). split; [simpl; congruence|]. constructor; auto.
          split; [|split; [auto|rewrite Rt; auto]].
          assert (Hnx : forall z, In z (nodes t) -> z <> x).
          { intros z Hz. apply HN in Hz. eapply conn_avoid; eauto. }
          assert (Hxr : In x (nbE E (root t))).
          { rewrite Rt. apply nbE_adj, adj_sym, nbE_adj; auto. }
          pose proof (rooted_lift E x t HF None HR Hnx) as G.
          destruct (in_dec Nat.eq_dec x (nbE E (root t))) as [_|]; [|contradiction].
          apply G; auto. intros z Hz Hzx. split; auto. rewrite Rt.
          destruct (Nat.eq_dec z y); auto. exfalso.
          apply (nbrs_apart E x y z HF); auto.
          + apply nbE_adj, adj_sym, nbE_adj; auto.
          + apply HN; auto. }
      apply G, incl_refl. }
    destruct Ex as (ts & Er & F). rewrite Forall_forall in F.
    exists (RNode x ts). split; auto. split.
    { constructor; simpl; [rewrite Er; auto|]. apply Forall_forall. intros t Ht. apply F; auto. }
    split.
    { simpl. constructor.
      - intros H. apply in_flat_map in H as (t & Ht & Hx). destruct (F t Ht) as (_ & _ & HN).
        apply HN in Hx. assert (root t <> x).
        { intros E1. apply NS. rewrite <- Er. rewrite <- E1. apply in_map; auto. }
        eapply conn_avoid in Hx; auto.
      - rewrite <- Er in NDn. assert (Inc : forall t, In t ts -> In (root t) (nbE E x)).
        { intros t Ht. rewrite <- Er. apply in_map; auto. }
        clear Er. induction ts as [|t ts IHt]; simpl; [constructor|].
        simpl in NDn. inversion NDn as [|? ? N1 N2]; subst.
        assert (D : forall z, In z (nodes t) -> In z (flat_map nodes ts) -> False).
        { intros z Hz Hz2. apply in_flat_map in Hz2 as (u & Hu & Hz2).
          destruct (F t (or_introl eq_refl)) as (_ & _ & HN1). destruct (F u (or_intror Hu)) as (_ & _ & HN2).
          apply HN1 in Hz. apply HN2 in Hz2.
          apply (nbrs_apart E x (root t) (root u) HF).
          - apply Inc; left; auto.
          - apply Inc; right; auto.
          - intros Eq. apply N1. rewrite Eq. apply in_map; auto.
          - eapply conn_trans; [exact Hz|apply conn_sym; auto]. }
        assert (NDr : NoDup (flat_map nodes ts)).
        { apply IHt; auto.
          - intros u Hu. apply F; right; auto.
          - intros u Hu. apply Inc; right; auto. }
        destruct (F t (or_introl eq_refl)) as (_ & NDt & _).
        clear -D NDr NDt. induction (nodes t) as [|z zs IH]; simpl; auto.
        inversion NDt; subst. constructor.
        + rewrite in_app_iff. intros [?|?]; auto. apply (D z); auto. left; auto.
        + apply IH; auto. intros w Hw. apply D. right; auto. }
    intros z. simpl. split.
    + intros [<-|H]; [constructor|]. apply in_flat_map in H as (t & Ht & Hz).
      destruct (F t Ht) as (_ & _ & HN). apply HN in Hz.
      eapply conn_step; [|eapply conn_incl; [apply del_incl|exact Hz]].
      apply nbE_adj. rewrite <- Er. apply in_map; auto.
    + intros C. destruct (Nat.eq_dec z x) as [->|N]; auto. right.
      destruct (conn_first E x z C N) as (y & A & C'). apply nbE_adj in A. rewrite <- Er in A.
      apply in_map_iff in A as (t & <- & Ht). apply in_flat_map. exists t. split; auto.
      destruct (F t Ht) as (_ & _ & HN). apply HN; auto.
Qed.
