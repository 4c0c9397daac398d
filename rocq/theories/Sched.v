(** * Sched: collect_evidence and distribute_evidence (bbn.py:340-402) follow the message protocol.

    For every visiting order the two phases send exactly one message in each direction of each edge,
    and a clique sends to a neighbour only after it has heard from all its other neighbours. *)
From Coq Require Import List Bool Arith Lia String Permutation.
From Verif Require Import Base BbnModel Forest Elim Triang Kruskal RTree.
Import ListNotations.
Local Open Scope list_scope.

Definition msg := (nat * nat)%type.

(** Messages towards the root, and away from it. *)
Fixpoint ups (t : rtree) : list msg :=
  match t with RNode x ts => flat_map (fun t' => (root t', x) :: ups t') ts end.

Fixpoint downs (t : rtree) : list msg :=
  match t with RNode x ts => flat_map (fun t' => (x, root t') :: downs t') ts end.

Lemma ups_src t u w : In (u, w) (ups t) -> In u (flat_map nodes (kids t)).
Proof.
  revert u w. induction t as [x ts IH] using rtree_ind'. simpl. intros u w H.
  apply in_flat_map in H as (t & Ht & H). apply in_flat_map. exists t. split; auto.
  simpl in H. destruct H as [[= <- <-]|H]; [apply root_nodes|].
  rewrite Forall_forall in IH. apply (IH t Ht) in H. destruct t; simpl in *; auto.
Qed.

Lemma downs_src t u w : In (u, w) (downs t) -> In u (nodes t).
Proof.
  revert u w. induction t as [x ts IH] using rtree_ind'. simpl. intros u w H.
  apply in_flat_map in H as (t & Ht & H). simpl in H. destruct H as [[= <- <-]|H]; auto.
  right. apply in_flat_map. exists t. split; auto.
  rewrite Forall_forall in IH. eapply IH; eauto.
Qed.

Lemma flat_map_NoDup_uniq {A B} (f : A -> list B) l a b x :
  NoDup (flat_map f l) -> In a l -> In b l -> In x (f a) -> In x (f b) -> a = b.
Proof.
  induction l as [|c l IH]; simpl; [tauto|]. intros ND Ha Hb Xa Xb.
  assert (D : forall y, In y (f c) -> In y (flat_map f l) -> False).
  { clear -ND. intros y H1 H2. induction (f c) as [|z zs IHz]; simpl in *; [tauto|].
    inversion ND; subst. destruct H1 as [->|H1]; auto. apply H3, in_app_iff; auto. }
  assert (NDl : NoDup (flat_map f l)).
  { clear -ND. induction (f c); simpl in *; auto. inversion ND; auto. }
  destruct Ha as [->|Ha], Hb as [->|Hb]; auto; exfalso; apply (D x); auto; apply in_flat_map; eauto.
Qed.

Lemma flat_map_NoDup_part {A B} (f : A -> list B) l a : NoDup (flat_map f l) -> In a l -> NoDup (f a).
Proof.
  induction l as [|c l IH]; simpl; [tauto|]. intros ND [->|Ha].
  - clear -ND. induction (f a); [constructor|]. simpl in *. inversion ND; subst.
    constructor; auto. intros H; apply H1, in_app_iff; auto.
  - apply IH; auto. clear -ND. induction (f c); simpl in *; auto. inversion ND; auto.
Qed.

Lemma is_marked_In i s : is_marked i s = true <-> In i (marked s).
Proof.
  unfold is_marked. rewrite existsb_exists. split.
  - intros (j & Hj & E). apply Nat.eqb_eq in E. subst; auto.
  - intros H. exists i. split; auto. apply Nat.eqb_refl.
Qed.

Lemma is_marked_notin i s : is_marked i s = false <-> ~ In i (marked s).
Proof. rewrite <- is_marked_In. destruct (is_marked i s); split; congruence. Qed.

Lemma nodes_length_kid t ts : In t ts -> List.length (nodes t) <= List.length (flat_map nodes ts).
Proof.
  induction ts as [|u us IH]; simpl; [tauto|]. rewrite app_length. intros [->|H]; [lia|].
  specialize (IH H). lia.
Qed.

Section Protocol.
  Variables (sc : sched) (jt : jtree).
  Hypothesis GS : good_sched sc.
  Let nb := jt_nbrs (jseps jt).

  Variable Inv : list msg -> pstate -> Prop.
  Hypothesis Inv_mark : forall M s m, Inv M s -> Inv M (mkP (cpot s) (spot s) m).

  Definition allowed (M : list msg) (x y : nat) : Prop :=
    In y (nb x) /\ ~ In (x, y) M /\ forall z, In z (nb x) -> z <> y -> In (z, x) M.

  Hypothesis Inv_step : forall M s x y, Inv M s -> allowed M x y ->
    exists s', pass_message jt x y s = Ok s' /\ marked s' = marked s /\ Inv ((x, y) :: M) s'.

  Definition adds (M M' l : list msg) : Prop := forall e, In e M' <-> In e M \/ In e l.

  Section LoopR.
    Variables (rec : nat -> pstate -> res pstate) (out : rtree -> list msg)
              (Pre : rtree -> list msg -> Prop) (ts : list rtree) (p : option nat) (x : nat).
    Hypothesis NDts : NoDup (flat_map nodes ts).
    Hypothesis NDr : NoDup (map root ts).
    Hypothesis Hrec : forall t s M, In t ts -> Inv M s -> In x (marked s) ->
      (forall z, In z (nodes t) -> ~ In z (marked s)) -> Pre t M ->
      exists s' M', rec (root t) s = Ok s' /\ Inv M' s' /\ adds M M' (out t) /\
        (forall z, In z (marked s') <-> In z (marked s) \/ In z (nodes t)).
    Hypothesis Hstable : forall t t' M M', In t ts -> In t' ts -> root t <> root t' ->
      Pre t' M -> adds M M' (out t) -> Pre t' M'.

    Lemma loop_ok : forall cs s M,
      NoDup cs ->
      (forall c, In c cs -> p = Some c \/ In c (map root ts)) ->
      In x (marked s) ->
      (forall r, p = Some r -> In r (marked s)) ->
      (forall t, In t ts -> In (root t) cs -> Pre t M /\ forall z, In z (nodes t) -> ~ In z (marked s)) ->
      Inv M s ->
      exists s' M',
        foldM (fun s c => if is_marked c s then Ok s else rec c s) cs s = Ok s' /\ Inv M' s' /\
        (forall e, In e M' <-> In e M \/ exists t, In t ts /\ In (root t) cs /\ In e (out t)) /\
        (forall z, In z (marked s') <-> In z (marked s) \/
                     exists t, In t ts /\ In (root t) cs /\ In z (nodes t)).
    Proof.
      induction cs as [|c cs IH]; intros s M NDc Hc Hx Hp Hun HI; simpl.
      - exists s, M. split; auto. split; auto. split; [|]; intros; (split; [auto|]);
        intros [?|(t & _ & [] & _)]; auto.
      - inversion NDc as [|? ? Nc NDc']; subst.
        destruct (Hc c (or_introl eq_refl)) as [Ep|Hcr].
        + rewrite (proj2 (is_marked_In c s) (Hp c Ep)). simpl.
          destruct (IH s M NDc') as (s' & M' & E & HI' & HM & Hmk); auto.
          { intros; apply Hc; right; auto. }
          { intros t Ht Hr. apply Hun; auto. right; auto. }
          exists s', M'. split; auto. split; auto.
          assert (Nroot : forall t, In t ts -> root t <> c).
          { intros t Ht Er. destruct (Hun t Ht) as [_ Hu]; [left; auto|].
            apply (Hu (root t) (root_nodes t)). rewrite Er. auto. }
          split; [intros e; rewrite HM|intros z; rewrite Hmk];
          (split; (intros [H|(t & Ht & Hr & H)]; [auto|right; exists t; split; auto; split; auto])).
          * destruct Hr as [->|Hr]; auto. exfalso; eapply Nroot; eauto.
          * destruct Hr as [->|Hr]; auto. exfalso; eapply Nroot; eauto.
        + apply in_map_iff in Hcr as (t & <- & Ht).
          destruct (Hun t Ht (or_introl eq_refl)) as [HPre Hu].
          rewrite (proj2 (is_marked_notin (root t) s) (Hu _ (root_nodes t))). simpl.
          destruct (Hrec t s M Ht HI Hx Hu HPre) as (s1 & M1 & E1 & HI1 & HM1 & Hm1).
          rewrite E1. simpl.
          destruct (IH s1 M1 NDc') as (s' & M' & E & HI' & HM & Hmk); auto.
          { intros; apply Hc; right; auto. }
          { apply Hm1; auto. }
          { intros r Hr. apply Hm1; auto. }
          { intros t' Ht' Hr'.
            assert (Nr : root t <> root t') by (intros Er; apply Nc; rewrite Er; auto).
            destruct (Hun t' Ht' (or_intror Hr')) as [HPre' Hu']. split.
            - eapply (Hstable t t'); eauto.
            - intros z Hz Hmz. apply Hm1 in Hmz as [Hmz|Hmz]; [eapply Hu'; eauto|].
              apply Nr. f_equal. eapply (flat_map_NoDup_uniq nodes ts); eauto. }
          exists s', M'. split; auto. split; auto.
          assert (Uniq : forall t', In t' ts -> root t' = root t -> t' = t).
          { intros t' Ht' Er. apply (flat_map_NoDup_uniq nodes ts t' t (root t)); auto.
            - rewrite <- Er. apply root_nodes.
            - apply root_nodes. }
          split; [intros e; rewrite HM; rewrite (HM1 e)|intros z; rewrite Hmk, Hm1]; split.
          * intros [[H|H]|(t' & Ht' & Hr & H)]; auto; right; [exists t|exists t']; split; auto.
          * intros [H|(t' & Ht' & [Hr|Hr] & H)]; auto.
            -- symmetry in Hr. apply Uniq in Hr; auto. subst t'. auto.
            -- right. exists t'; auto.
          * intros [[H|H]|(t' & Ht' & Hr & H)]; auto; right; [exists t|exists t']; split; auto.
          * intros [H|(t' & Ht' & [Hr|Hr] & H)]; auto.
            -- symmetry in Hr. apply Uniq in Hr; auto. subst t'. auto.
            -- right. exists t'; auto.
    Qed.
  End LoopR.

  Lemma collect_ok t : forall fuel p s M,
    List.length (nodes t) <= fuel -> rooted nb p t -> NoDup (olist p ++ nodes t) ->
    (forall z, In z (nodes t) -> ~ In z (marked s)) ->
    (forall r, p = Some r -> In r (marked s)) ->
    (forall u w, In (u, w) M -> ~ In u (nodes t)) ->
    Inv M s ->
    exists s' M', collect_evidence fuel sc jt (root t) p s = Ok s' /\ Inv M' s' /\
      adds M M' (ups t ++ map (pair (root t)) (olist p)) /\
      (forall z, In z (marked s') <-> In z (marked s) \/ In z (nodes t)).
  Proof.
    induction t as [x ts IH] using rtree_ind'. intros fuel p s M L HR ND Hun Hp HM HI.
    rewrite Forall_forall in IH. apply rooted_inv in HR as [P F]. rewrite Forall_forall in F.
    destruct fuel as [|fuel]; [simpl in L; lia|]. cbn [root collect_evidence]. fold nb.
    assert (NDn : NoDup (nodes (RNode x ts))).
    { clear -ND. induction (olist p); simpl in *; auto. inversion ND; auto. }
    simpl in NDn. inversion NDn as [|? ? Nx NDts]; subst.
    assert (NDnb : NoDup (nb x)).
    { apply (Permutation_NoDup (Permutation_sym P)).
      assert (NDr : NoDup (map root ts)).
      { clear -NDts. induction ts as [|t ts IHt]; simpl in *; [constructor|].
        constructor.
        - intros H. apply in_map_iff in H as (u & Er & Hu).
          assert (In (root t) (flat_map nodes ts)) by (apply in_flat_map; exists u; split; auto; rewrite <- Er; apply root_nodes).
          pose proof (root_nodes t) as Hr. clear -NDts H Hr. induction (nodes t); simpl in *; [tauto|].
          inversion NDts; subst. destruct Hr as [->|Hr]; auto. apply H2, in_app_iff; auto.
        - apply IHt. clear -NDts. induction (nodes t); simpl in *; auto. inversion NDts; auto. }
      destruct p as [r|]; simpl; auto. constructor; auto.
      intros H. simpl in ND. inversion ND as [|? ? Nr _]; subst. apply Nr. right.
      apply in_map_iff in H as (t & <- & Ht). apply in_flat_map. exists t; split; auto. apply root_nodes. }
    assert (NDr : NoDup (map root ts)).
    { pose proof (Permutation_NoDup P NDnb) as H. clear -H. induction (olist p); simpl in *; auto. inversion H; auto. }
    assert (Nrx : forall t, In t ts -> root t <> x).
    { intros t Ht Er. apply Nx. rewrite <- Er. apply in_flat_map. exists t; split; auto. apply root_nodes. }
    pose proof (proj2 GS 0 x (nb x)) as Pv.
    destruct (loop_ok (fun c s => collect_evidence fuel sc jt c (Some x) s)
                (fun t => ups t ++ [(root t, x)])
                (fun t M => forall u w, In (u, w) M -> ~ In u (nodes t)) ts p x NDts)
      with (cs := vis sc 0 x (nb x)) (s := mark x s) (M := M) as (s1 & M1 & E1 & HI1 & HM1 & Hm1).
    - (* recursion *)
      intros t s0 M0 Ht HI0 Hx0 Hu0 HPre0.
      destruct (IH t Ht fuel (Some x) s0 M0) as (s' & M' & E & HI' & HM' & Hm'); auto.
      + pose proof (nodes_length_kid t ts Ht). simpl in L. lia.
      + simpl. constructor.
        * intros H. apply Nx. apply in_flat_map; eauto.
        * eapply flat_map_NoDup_part; eauto.
      + intros r [= <-]. auto.
      + exists s', M'. auto.
    - intros t t' M0 M0' Ht Ht' Nr HPre HA u w Huw.
      apply HA in Huw as [Huw|Huw]; [eapply HPre; eauto|].
      assert (Hu : In u (nodes t)).
      { apply in_app_iff in Huw as [Huw|[[= <- <-]|[]]]; [|apply root_nodes].
        apply ups_src in Huw. destruct t; simpl in *; auto. }
      intros Hu'. apply Nr. f_equal. eapply (flat_map_NoDup_uniq nodes ts); eauto.
    - apply (Permutation_NoDup Pv NDnb).
    - intros c Hc. apply (Permutation_in _ (Permutation_sym Pv)) in Hc. apply (Permutation_in _ P) in Hc.
      apply in_app_iff in Hc as [Hc|Hc]; auto. destruct p; simpl in Hc; [|tauto].
      destruct Hc as [<-|[]]. auto.
    - simpl; auto.
    - intros r Hr. simpl. auto.
    - intros t Ht _. split.
      + intros u w Huw Hu. eapply HM; eauto. simpl. right. apply in_flat_map; eauto.
      + intros z Hz. simpl. intros [<-|Hz'].
        * apply Nx. apply in_flat_map; eauto.
        * eapply Hun; eauto. simpl. right. apply in_flat_map; eauto.
    - apply Inv_mark; auto.
    - rewrite E1. cbn [bind].
      assert (Rin : forall t, In t ts -> In (root t) (vis sc 0 x (nb x))).
      { intros t Ht. apply (Permutation_in _ Pv). apply (Permutation_in _ (Permutation_sym P)).
        apply in_app_iff. right. apply in_map; auto. }
      assert (HM1' : forall e, In e M1 <-> In e M \/ In e (ups (RNode x ts))).
      { intros e. rewrite HM1. simpl. rewrite in_flat_map. split.
        - intros [H|(t & Ht & _ & H)]; auto. right. exists t. split; auto.
          apply in_app_iff in H. simpl in *. tauto.
        - intros [H|(t & Ht & H)]; auto. right. exists t. split; auto. split; auto.
          apply in_app_iff. simpl in *. tauto. }
      assert (Hm1' : forall z, In z (marked s1) <-> In z (marked s) \/ In z (nodes (RNode x ts))).
      { intros z. rewrite Hm1. simpl. rewrite in_flat_map. split.
        - intros [[<-|H]|(t & Ht & _ & H)]; auto. right; right; eauto.
        - intros [H|[<-|(t & Ht & H)]]; auto. right. eauto. }
      destruct p as [r|].
      + destruct (Inv_step M1 s1 x r HI1) as (s2 & E2 & Em & HI2).
        { split; [apply (Permutation_in _ (Permutation_sym P)); simpl; auto|]. split.
          - intros H. apply HM1' in H as [H|H].
            + eapply HM; eauto. simpl; auto.
            + apply ups_src in H. simpl in H. auto.
          - intros z Hz Nz. apply (Permutation_in _ P) in Hz. simpl in Hz. destruct Hz as [<-|Hz]; [congruence|].
            apply in_map_iff in Hz as (t & <- & Ht). apply HM1'. right. simpl. apply in_flat_map. exists t.
            split; auto. simpl; auto. }
        exists s2, ((x, r) :: M1). split; auto. split; auto. split.
        * intros e. rewrite in_app_iff. simpl. rewrite HM1'. simpl. tauto.
        * intros z. rewrite Em. apply Hm1'.
      + exists s1, M1. split; auto. split; auto. split; auto.
        intros e. rewrite in_app_iff. rewrite HM1'. simpl. tauto.
  Qed.

  (** First loop of distribute: send to all unmarked neighbours. *)
  Lemma send_ok x : forall cs s M,
    NoDup cs -> incl cs (nb x) ->
    (forall c, In c cs -> ~ In c (marked s) -> ~ In (x, c) M /\ forall z, In z (nb x) -> z <> c -> In (z, x) M) ->
    Inv M s ->
    exists s' M', foldM (fun s c => if is_marked c s then Ok s else pass_message jt x c s) cs s = Ok s' /\
      Inv M' s' /\ marked s' = marked s /\
      (forall e, In e M' <-> In e M \/ exists c, In c cs /\ ~ In c (marked s) /\ e = (x, c)).
  Proof.
    induction cs as [|c cs IH]; intros s M ND Inc Hc HI; simpl.
    - exists s, M. split; auto. split; auto. split; auto. intros e; split; auto.
      intros [?|(c & [] & _)]; auto.
    - inversion ND as [|? ? Nc ND']; subst.
      destruct (is_marked c s) eqn:Em.
      + apply is_marked_In in Em. simpl.
        destruct (IH s M ND') as (s' & M' & E & HI' & Emk & HM); auto.
        { intros y Hy; apply Inc; right; auto. } { intros y Hy; apply Hc; right; auto. }
        exists s', M'. split; auto. split; auto. split; auto. intros e. rewrite HM. split.
        * intros [H|(y & Hy & Hn & ->)]; auto. right. exists y. auto.
        * intros [H|(y & [<-|Hy] & Hn & ->)]; auto; [contradiction|]. right. exists y. auto.
      + apply is_marked_notin in Em. destruct (Hc c (or_introl eq_refl) Em) as [H1 H2].
        destruct (Inv_step M s x c HI) as (s1 & E1 & Em1 & HI1).
        { split; [apply Inc; left; auto|auto]. }
        rewrite E1. simpl.
        destruct (IH s1 ((x, c) :: M) ND') as (s' & M' & E & HI' & Emk & HM); auto.
        { intros y Hy; apply Inc; right; auto. }
        { intros y Hy Hny. rewrite Em1 in Hny. destruct (Hc y (or_intror Hy) Hny) as [H3 H4]. split.
          - intros [[= ->]|H]; auto.
          - intros z Hz Nz. right. auto. }
        exists s', M'. split; auto. split; auto. split; [congruence|]. intros e. rewrite HM, Em1. split.
        * intros [[<-|H]|(y & Hy & Hn & ->)]; auto; right; [exists c|exists y]; auto.
        * intros [H|(y & [<-|Hy] & Hn & ->)];
            [left; right; auto | left; left; auto | right; exists y; auto].
  Qed.

  Lemma distribute_ok t : forall fuel p s M,
    List.length (nodes t) <= fuel -> rooted nb p t -> NoDup (olist p ++ nodes t) ->
    (forall z, In z (nodes t) -> ~ In z (marked s)) ->
    (forall r, p = Some r -> In r (marked s) /\ In (r, root t) M) ->
    (forall e, In e (downs t) -> ~ In e M) ->
    incl (ups t) M ->
    Inv M s ->
    exists s' M', distribute_evidence fuel sc jt (root t) s = Ok s' /\ Inv M' s' /\
      adds M M' (downs t) /\
      (forall z, In z (marked s') <-> In z (marked s) \/ In z (nodes t)).
  Proof.
    induction t as [x ts IH] using rtree_ind'. intros fuel p s M L HR ND Hun Hp HD HU HI.
    rewrite Forall_forall in IH. apply rooted_inv in HR as [P F]. rewrite Forall_forall in F.
    destruct fuel as [|fuel]; [simpl in L; lia|]. cbn [root distribute_evidence]. fold nb.
    assert (NDn : NoDup (nodes (RNode x ts))).
    { clear -ND. induction (olist p); simpl in *; auto. inversion ND; auto. }
    simpl in NDn. inversion NDn as [|? ? Nx NDts]; subst.
    assert (NDr : NoDup (map root ts)).
    { clear -NDts. induction ts as [|t ts IHt]; simpl in *; [constructor|].
      constructor.
      - intros H. apply in_map_iff in H as (u & Er & Hu).
        assert (In (root t) (flat_map nodes ts)) by (apply in_flat_map; exists u; split; auto; rewrite <- Er; apply root_nodes).
        pose proof (root_nodes t) as Hr. clear -NDts H Hr. induction (nodes t); simpl in *; [tauto|].
        inversion NDts; subst. destruct Hr as [->|Hr]; auto. apply H2, in_app_iff; auto.
      - apply IHt. clear -NDts. induction (nodes t); simpl in *; auto. inversion NDts; auto. }
    assert (Np : forall r t, p = Some r -> In t ts -> r <> root t).
    { intros r t -> Ht ->. simpl in ND. inversion ND as [|? ? Nr _]; subst. apply Nr. right.
      apply in_flat_map. exists t; split; auto. apply root_nodes. }
    assert (NDnb : NoDup (nb x)).
    { apply (Permutation_NoDup (Permutation_sym P)).
      destruct p as [r|]; simpl; auto. constructor; auto.
      intros H. apply in_map_iff in H as (t & Er & Ht). symmetry in Er. eapply Np; eauto. }
    assert (Nrx : forall t, In t ts -> root t <> x).
    { intros t Ht Er. apply Nx. rewrite <- Er. apply in_flat_map. exists t; split; auto. apply root_nodes. }
    pose proof (proj2 GS 1 x (nb x)) as Pv1. pose proof (proj2 GS 2 x (nb x)) as Pv2.
    assert (Hnbx : forall c, In c (nb x) <-> p = Some c \/ In c (map root ts)).
    { intros c. split.
      - intros H. apply (Permutation_in _ P) in H. apply in_app_iff in H as [H|H]; auto.
        destruct p; simpl in H; [|tauto]. destruct H as [<-|[]]; auto.
      - intros H. apply (Permutation_in _ (Permutation_sym P)). apply in_app_iff.
        destruct H as [->|H]; auto. simpl; auto. }
    assert (HunK : forall t z, In t ts -> In z (nodes t) -> ~ In z (x :: marked s)).
    { intros t z Ht Hz [<-|Hz'].
      - apply Nx. apply in_flat_map; eauto.
      - eapply Hun; eauto. simpl. right. apply in_flat_map; eauto. }
    destruct (send_ok x (vis sc 1 x (nb x)) (mark x s) M) as (s1 & M1 & E1 & HI1 & Em1 & HM1).
    - apply (Permutation_NoDup Pv1 NDnb).
    - intros c Hc. apply (Permutation_in _ (Permutation_sym Pv1)); auto.
    - intros c Hc Hn. apply (Permutation_in _ (Permutation_sym Pv1)) in Hc. apply Hnbx in Hc.
      destruct Hc as [Ep|Hc].
      { exfalso. apply Hn. simpl. right. apply Hp; auto. }
      apply in_map_iff in Hc as (t & <- & Ht). split.
      + apply HD. simpl. apply in_flat_map. exists t. split; auto. simpl; auto.
      + intros z Hz _. apply Hnbx in Hz as [Ep|Hz]; [apply Hp; auto|].
        apply in_map_iff in Hz as (u & <- & Hu). apply HU. simpl. apply in_flat_map.
        exists u. split; auto. simpl; auto.
    - apply Inv_mark; auto.
    - rewrite E1. cbn [bind]. simpl in Em1.
      assert (HM1' : forall e, In e M1 <-> In e M \/ exists t, In t ts /\ e = (x, root t)).
      { intros e. rewrite HM1. simpl. split.
        - intros [H|(c & Hc & Hn & ->)]; auto. right.
          apply (Permutation_in _ (Permutation_sym Pv1)) in Hc. apply Hnbx in Hc as [Ep|Hc].
          + exfalso. apply Hn. right. apply Hp; auto.
          + apply in_map_iff in Hc as (t & <- & Ht). eauto.
        - intros [H|(t & Ht & ->)]; auto. right. exists (root t). split.
          + apply (Permutation_in _ Pv1). apply Hnbx. right. apply in_map; auto.
          + split; auto. apply (HunK t (root t) Ht (root_nodes t)). }
      destruct (loop_ok (fun c s => distribute_evidence fuel sc jt c s) downs
                  (fun t M => In (x, root t) M /\ incl (ups t) M /\ forall e, In e (downs t) -> ~ In e M)
                  ts p x NDts)
        with (cs := vis sc 2 x (nb x)) (s := s1) (M := M1) as (s2 & M2 & E2 & HI2 & HM2 & Hm2).
      + intros t s0 M0 Ht HI0 Hx0 Hu0 (HP1 & HP2 & HP3).
        destruct (IH t Ht fuel (Some x) s0 M0) as (s' & M' & E & HI' & HM' & Hm'); auto.
        * pose proof (nodes_length_kid t ts Ht). simpl in L. lia.
        * simpl. constructor.
          -- intros H. apply Nx. apply in_flat_map; eauto.
          -- eapply flat_map_NoDup_part; eauto.
        * intros r [= <-]. auto.
        * exists s', M'. auto.
      + intros t t' M0 M0' Ht Ht' Nr (HP1 & HP2 & HP3) HA. split; [apply HA; auto|]. split.
        * intros e He. apply HA. auto.
        * intros [u w] He Hin. apply HA in Hin as [Hin|Hin]; [eapply HP3; eauto|].
          apply downs_src in He, Hin. apply Nr. f_equal. eapply (flat_map_NoDup_uniq nodes ts); eauto.
      + apply (Permutation_NoDup Pv2 NDnb).
      + intros c Hc. apply (Permutation_in _ (Permutation_sym Pv2)) in Hc. apply Hnbx; auto.
      + rewrite Em1. left; auto.
      + intros r Hr. rewrite Em1. right. apply Hp; auto.
      + intros t Ht _. split.
        * split; [apply HM1'; right; eauto|]. split.
          -- intros e He. apply HM1'. left. apply HU. simpl. apply in_flat_map. exists t. split; auto. right; auto.
          -- intros [u w] He Hin. apply HM1' in Hin as [Hin|(t' & Ht' & [= -> ->])].
             ++ eapply HD; eauto. simpl. apply in_flat_map. exists t. split; auto. right; auto.
             ++ apply downs_src in He. apply Nx. apply in_flat_map; eauto.
        * intros z Hz. rewrite Em1. apply (HunK t z Ht Hz).
      + auto.
      + rewrite E2. exists s2, M2. split; auto. split; auto.
        assert (Rin : forall t, In t ts -> In (root t) (vis sc 2 x (nb x))).
        { intros t Ht. apply (Permutation_in _ Pv2). apply Hnbx. right. apply in_map; auto. }
        split.
        * intros e. rewrite HM2, HM1'. simpl. rewrite in_flat_map. split.
          -- intros [[H|(t & Ht & ->)]|(t & Ht & _ & H)]; auto; right; exists t; split; auto; simpl; auto.
          -- intros [H|(t & Ht & [<-|H])]; auto; [left; right; eauto|right; eauto].
        * intros z. rewrite Hm2, Em1. simpl. rewrite in_flat_map. split.
          -- intros [[<-|H]|(t & Ht & _ & H)]; auto. right; right; eauto.
          -- intros [H|[<-|(t & Ht & H)]]; auto. right; eauto.
  Qed.

  (** All directed edges of a rooted tree. *)
  Lemma rooted_msgs t : forall p u w, rooted nb p t -> In u (nodes t) -> In w (nb u) ->
    In (u, w) (ups t) \/ In (u, w) (downs t) \/ (u = root t /\ p = Some w).
  Proof.
    induction t as [x ts IH] using rtree_ind'. intros p u w HR Hu Hw.
    apply rooted_inv in HR as [P F]. rewrite Forall_forall in IH, F. simpl in *. destruct Hu as [<-|Hu].
    - apply (Permutation_in _ P), in_app_iff in Hw as [Hw|Hw].
      + destruct p; simpl in Hw; [|tauto]. destruct Hw as [<-|[]]; auto.
      + apply in_map_iff in Hw as (t & <- & Ht). right; left. apply in_flat_map. exists t. simpl; auto.
    - apply in_flat_map in Hu as (t & Ht & Hu).
      destruct (IH t Ht (Some x) u w (F t Ht) Hu Hw) as [H|[H|[-> [= <-]]]].
      + left. apply in_flat_map. exists t. simpl; auto.
      + right; left. apply in_flat_map. exists t. simpl; auto.
      + left. apply in_flat_map. exists t. simpl; auto.
  Qed.


  Theorem propagate_ok x t s :
    rooted nb None t -> root t = x -> NoDup (nodes t) -> hd_error (jorder jt) = Some x ->
    List.length (nodes t) <= List.length (jcliques jt) ->
    Inv [] s ->
    exists s' M, propagate sc jt s = Ok s' /\ Inv M s' /\
      forall u w, In u (nodes t) -> In w (nb u) -> In (u, w) M.
  Proof.
    intros HR Er ND Ho L HI. unfold propagate. destruct (jorder jt) as [|o os]; [discriminate|].
    injection Ho as ->. subst x.
    destruct (collect_ok t (List.length (jcliques jt)) None (mkP (cpot s) (spot s) []) [])
      as (s1 & M1 & E1 & HI1 & HM1 & Hm1); auto.
    { intros r; discriminate. }
    rewrite E1. cbn [bind].
    destruct (distribute_ok t (List.length (jcliques jt)) None (mkP (cpot s1) (spot s1) []) M1)
      as (s2 & M2 & E2 & HI2 & HM2 & Hm2); auto.
    { intros r; discriminate. }
    { intros [u w] He Hin. apply HM1 in Hin as [[]|Hin]. simpl in Hin. rewrite app_nil_r in Hin.
      (* an edge is not both upward and downward *)
      clear -He Hin ND. revert u w He Hin ND. induction t as [x ts IH] using rtree_ind'.
      intros u w He Hin ND. simpl in *. inversion ND as [|? ? Nx NDts]; subst.
      apply in_flat_map in He as (t1 & Ht1 & He). apply in_flat_map in Hin as (t2 & Ht2 & Hin).
      simpl in He, Hin.
      assert (U : In u (nodes t2)).
      { destruct Hin as [[= <- <-]|Hin]; [apply root_nodes|]. apply ups_src in Hin. destruct t2; simpl in *; auto. }
      destruct He as [[= <- <-]|He].
      - apply Nx. apply in_flat_map; eauto.
      - assert (t1 = t2).
        { apply (flat_map_NoDup_uniq nodes ts t1 t2 u); auto. eapply downs_src; eauto. }
        subst t2. destruct Hin as [[= <- <-]|Hin].
        + assert (W : forall t a b, In (a, b) (downs t) -> In b (nodes t)).
          { clear. intros t. induction t as [x ts IH] using rtree_ind'. intros a b H. simpl in *.
            apply in_flat_map in H as (t & Ht & H). right. apply in_flat_map. exists t. split; auto.
            destruct H as [[= <- <-]|H]; [apply root_nodes|]. rewrite Forall_forall in IH. eapply IH; eauto. }
          apply W in He. apply Nx. apply in_flat_map; eauto.
        + rewrite Forall_forall in IH. eapply (IH t1 Ht1); eauto. eapply flat_map_NoDup_part; eauto. }
    { intros e He. apply HM1. right. apply in_app_iff; auto. }
    rewrite E2. exists s2, M2. split; auto. split; auto.
    intros u w Hu Hw. apply HM2.
    destruct (rooted_msgs t None u w HR Hu Hw) as [H|[H|[_ H]]]; [|auto|discriminate].
    left. apply HM1. right. apply in_app_iff; auto.
  Qed.
End Protocol.
