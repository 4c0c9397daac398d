(** * Calib: message passing on potentials seen as functions.

    Each message keeps the product of clique potentials over separator potentials, keeps separators
    supported, and after both directions of every edge the tree is calibrated; the potential of a
    clique is then the sum of the joint over all other variables. *)
From Coq Require Import List Bool Arith Lia String QArith Qcanon Permutation.
From Verif Require Import Base QcX BbnModel SumOver Forest Elim Triang Kruskal RTree Sched.
Import ListNotations.
Local Open Scope Qc_scope.

Definition diff (a b : list var) : list var := filter (fun x => negb (smem x b)) a.

Lemma diff_In x a b : In x (diff a b) <-> In x a /\ ~ In x b.
Proof. unfold diff. rewrite filter_In, negb_true_iff, smem_false. tauto. Qed.

Lemma diff_NoDup a b : NoDup a -> NoDup (diff a b).
Proof. apply NoDup_filter. Qed.

Lemma find_sep_some seps i j k0 k :
  find_sep seps i j k0 = Some k ->
  exists s, (k0 <= k)%nat /\ nth_error seps (k - k0) = Some s /\ (ends s = (i, j) \/ ends s = (j, i)).
Proof.
  revert k0. induction seps as [|s seps IH]; intros k0; [discriminate|]. cbn [find_sep].
  destruct ((Nat.eqb (ssx s) i && Nat.eqb (ssy s) j) || (Nat.eqb (ssx s) j && Nat.eqb (ssy s) i))%bool eqn:E.
  - intros [= <-]. exists s. split; [lia|]. rewrite Nat.sub_diag. split; auto. unfold ends.
    apply orb_true_iff in E as [E|E]; apply andb_true_iff in E as [E1 E2]; apply Nat.eqb_eq in E1, E2; subst; auto.
  - intros H. destruct (IH (S k0) H) as (t & L & Hn & He). exists t. split; [lia|]. split; auto.
    replace (k - k0)%nat with (S (k - S k0)) by lia. auto.
Qed.

Lemma find_sep_none seps i j k0 : find_sep seps i j k0 = None -> ~ adj (map ends seps) i j.
Proof.
  revert k0. induction seps as [|s seps IH]; intros k0; cbn [find_sep].
  - intros _ [[]|[]].
  - destruct ((Nat.eqb (ssx s) i && Nat.eqb (ssy s) j) || (Nat.eqb (ssx s) j && Nat.eqb (ssy s) i))%bool eqn:E;
    [discriminate|]. intros H. apply IH in H. apply orb_false_iff in E as [E1 E2].
    intros [A|A]; simpl in A; destruct A as [A|A].
    + injection A as A1 A2. rewrite A1, A2, !Nat.eqb_refl in E1. discriminate.
    + apply H. left; auto.
    + injection A as A1 A2. rewrite A1, A2, !Nat.eqb_refl in E2. discriminate.
    + apply H. right; auto.
Qed.

Lemma find_sep_sym seps x y k : find_sep seps x y k = find_sep seps y x k.
Proof.
  revert k. induction seps as [|s l IH]; intros k; auto. cbn [find_sep]. rewrite IH.
  rewrite (orb_comm (Nat.eqb (ssx s) x && Nat.eqb (ssy s) y)). reflexivity.
Qed.

Lemma Qprod_split {A} (f : A -> Qc) l x : NoDup l -> In x l ->
  exists l', Permutation l (x :: l') /\ ~ In x l' /\ Qprod f l = f x * Qprod f l'.
Proof.
  intros ND Hx. destruct (in_split x l Hx) as (l1 & l2 & ->). exists (l1 ++ l2).
  assert (P : Permutation (l1 ++ x :: l2) (x :: l1 ++ l2)) by (symmetry; apply Permutation_middle).
  split; auto. split.
  - apply (Permutation_NoDup P) in ND. inversion ND; auto.
  - rewrite (Qprod_perm _ _ _ P). reflexivity.
Qed.

Section Calib.
  Variable dom : var -> list value.
  Variable jt : jtree.
  Let n := List.length (jcliques jt).
  Let m := List.length (jseps jt).
  Let cl := clf (jcliques jt).
  Let nb := jt_nbrs (jseps jt).

  Definition lab (k : nat) : list var :=
    match nth_error (jseps jt) k with Some s => sslabel s | None => [] end.

  Hypothesis NDcl : forall i, (i < n)%nat -> NoDup (cl i).
  Hypothesis Hseps : forall s, In s (jseps jt) -> In s (all_sepsets (jcliques jt)).
  Hypothesis HF : forest (map ends (jseps jt)).

  Definition valid (a : assign) : Prop := forall v, In (a v) (dom v).

  Variable J : assign -> Qc.

  Record FInv (M : list msg) (F : nat -> assign -> Qc) (G : nat -> assign -> Qc) : Prop := {
    f_depF : forall i, (i < n)%nat -> dep (cl i) (F i);
    f_depG : forall k, (k < m)%nat -> dep (lab k) (G k);
    f_posF : forall i a, (i < n)%nat -> valid a -> 0 <= F i a;
    f_posG : forall k a, (k < m)%nat -> valid a -> 0 <= G k a;
    f_supp : forall k s a, nth_error (jseps jt) k = Some s -> valid a -> G k a = 0 ->
               F (ssx s) a = 0 /\ F (ssy s) a = 0;
    f_joint : forall a, valid a ->
               Qprod (fun i => F i a) (seq 0 n) * Qprod (fun k => / G k a) (seq 0 m) = J a;
    f_closed : forall x y, In (x, y) M -> In y (nb x) /\ forall z, In z (nb x) -> z <> y -> In (z, x) M;
    f_cal : forall x y k, In (x, y) M -> find_sep (jseps jt) x y 0 = Some k ->
               forall a, valid a -> G k a = sumover dom (diff (cl x) (lab k)) (F x) a
  }.

  (** Facts about one edge. *)
  Lemma edge_facts x y k : find_sep (jseps jt) x y 0 = Some k ->
    (k < m)%nat /\ (x < n)%nat /\ (y < n)%nat /\ x <> y /\
    (forall v, In v (lab k) <-> In v (cl x) /\ In v (cl y)) /\
    exists s, nth_error (jseps jt) k = Some s /\ (ends s = (x, y) \/ ends s = (y, x)).
  Proof.
    intros H. apply find_sep_some in H as (s & _ & Hn & He). rewrite Nat.sub_0_r in Hn.
    assert (Hs : In s (jseps jt)) by (eapply nth_error_In; eauto).
    destruct (all_sepsets_In _ _ (Hseps s Hs)) as (L1 & L2 & El & _). fold n in L2.
    split; [apply nth_error_Some; congruence|].
    assert (Lab : forall v, In v (lab k) <-> In v (cl (ssx s)) /\ In v (cl (ssy s))).
    { intros v. unfold lab. rewrite Hn, El. apply inter_In. }
    destruct He as [[= <- <-]|[= <- <-]].
    - split; [lia|]. split; [lia|]. split; [lia|]. split; auto. exists s; auto.
    - split; [lia|]. split; [lia|]. split; [lia|]. split; [intros v; rewrite Lab; tauto|]. exists s; auto.
  Qed.

  Lemma same_edge x y u w k :
    find_sep (jseps jt) x y 0 = Some k -> find_sep (jseps jt) u w 0 = Some k ->
    (u = x /\ w = y) \/ (u = y /\ w = x).
  Proof.
    intros H1 H2. apply find_sep_some in H1 as (s & _ & Hn & He). apply find_sep_some in H2 as (t & _ & Hn2 & He2).
    rewrite Hn in Hn2. injection Hn2 as <-.
    destruct He as [He|He], He2 as [He2|He2]; rewrite He in He2; injection He2 as -> ->; auto.
  Qed.

  Lemma nb_find x y : In y (nb x) -> exists k, find_sep (jseps jt) x y 0 = Some k.
  Proof.
    intros H. destruct (find_sep (jseps jt) x y 0) eqn:E; eauto. apply find_sep_none in E. exfalso; apply E.
    unfold nb in H. rewrite jt_nbrs_nbE in H. apply nbE_adj; auto.
  Qed.

  (** The message from x to y over separator k. *)
  Definition msgG (F G : nat -> assign -> Qc) (x k : nat) : nat -> assign -> Qc :=
    updn G k (sumover dom (diff (cl x) (lab k)) (F x)).

  Definition msgF (F G : nat -> assign -> Qc) (x y k : nat) : nat -> assign -> Qc :=
    updn F y (fun a => F y a * (sumover dom (diff (cl x) (lab k)) (F x) a / G k a)).

  Lemma updn_same {A} (f : nat -> A) i x : updn f i x i = x.
  Proof. unfold updn. rewrite Nat.eqb_refl; auto. Qed.

  Lemma updn_other {A} (f : nat -> A) i x j : j <> i -> updn f i x j = f j.
  Proof. intros N. unfold updn. apply Nat.eqb_neq in N. rewrite N; auto. Qed.

  Lemma valid_part a b vs : valid a -> (forall v, ~ In v vs -> b v = a v) ->
    (forall v, In v vs -> In (b v) (dom v)) -> valid b.
  Proof.
    intros V E D v. destruct (in_dec String.string_dec v vs); auto. rewrite E; auto.
  Qed.

  Lemma msg_zero M F G x y k a :
    FInv M F G -> find_sep (jseps jt) x y 0 = Some k -> valid a ->
    sumover dom (diff (cl x) (lab k)) (F x) a = 0 -> F x a = 0.
  Proof.
    intros I Hk V Z. destruct (edge_facts x y k Hk) as (Lk & Lx & Ly & Nxy & Lab & _).
    eapply sumover_zero_inv; [apply (f_depF _ _ _ I x Lx)| |exact Z|].
    - intros b Hb Hd. apply (f_posF _ _ _ I); auto. eapply valid_part; eauto.
    - intros v _. apply V.
  Qed.

  Lemma supp_both M F G x y k a :
    FInv M F G -> find_sep (jseps jt) x y 0 = Some k -> valid a -> G k a = 0 -> F x a = 0 /\ F y a = 0.
  Proof.
    intros I Hk V Z. destruct (edge_facts x y k Hk) as (_ & _ & _ & _ & _ & s & Hn & He).
    destruct (f_supp _ _ _ I k s a Hn V Z) as [H1 H2].
    destruct He as [[= E1 E2]|[= E1 E2]]; rewrite <- E1, <- E2; auto.
  Qed.

  (** The separator vanishes only where the message does. *)
  Lemma supp_msg M F G x y k a :
    FInv M F G -> find_sep (jseps jt) x y 0 = Some k -> valid a -> G k a = 0 ->
    sumover dom (diff (cl x) (lab k)) (F x) a = 0.
  Proof.
    intros I Hk V Z. destruct (edge_facts x y k Hk) as (Lk & Lx & Ly & Nxy & Lab & _).
    rewrite (sumover_ext dom _ (F x) (fun _ => 0)).
    - clear. revert a. induction (diff (cl x) (lab k)) as [|v vs IH]; simpl; intros a; auto.
      apply Qsum_all_zero. intros; auto.
    - intros b Hb Hd. apply (proj1 (supp_both M F G x y k b I Hk (valid_part _ _ _ V Hb Hd)
        ltac:(rewrite <- Z; apply (f_depG _ _ _ I k Lk); intros v Hv; apply Hb; rewrite diff_In; tauto))).
  Qed.

  Theorem step_inv M F G x y k :
    FInv M F G -> allowed jt M x y -> find_sep (jseps jt) x y 0 = Some k ->
    FInv ((x, y) :: M) (msgF F G x y k) (msgG F G x k).
  Proof.
    intros I (Hy & Nm & Hall) Hk.
    destruct (edge_facts x y k Hk) as (Lk & Lx & Ly & Nxy & Lab & s & Hs & He).
    set (mu := sumover dom (diff (cl x) (lab k)) (F x)).
    assert (Dmu : dep (lab k) mu).
    { eapply sumover_dep; [apply (f_depF _ _ _ I x Lx)|]. intros v Hv Hn. rewrite diff_In in Hn.
      destruct (in_dec String.string_dec v (lab k)); tauto. }
    assert (Pmu : forall a, valid a -> 0 <= mu a).
    { intros a V. apply sumover_nonneg_dom. intros b Hb Hd. apply (f_posF _ _ _ I); auto.
      eapply valid_part; eauto. }
    assert (Zmu : forall a, valid a -> mu a = 0 -> F x a = 0).
    { intros a V. eapply msg_zero; eauto. }
    assert (LabY : incl (lab k) (cl y)) by (intros v Hv; apply Lab; auto).
    constructor.
    - intros i Li. unfold msgF, updn. destruct (Nat.eqb_spec i y) as [->|N]; [|apply (f_depF _ _ _ I); auto].
      intros a b E. rewrite (f_depF _ _ _ I y Ly a b E). fold mu.
      rewrite (Dmu a b), (f_depG _ _ _ I k Lk a b); auto.
    - intros j Lj. unfold msgG, updn. destruct (Nat.eqb_spec j k) as [->|N]; [exact Dmu|].
      apply (f_depG _ _ _ I); auto.
    - intros i a Li V. unfold msgF, updn. destruct (Nat.eqb_spec i y) as [->|N]; [|apply (f_posF _ _ _ I); auto].
      apply Qc_mul_nonneg; [apply (f_posF _ _ _ I); auto|]. apply Qc_div_nonneg; [apply Pmu; auto|].
      apply (f_posG _ _ _ I); auto.
    - intros j a Lj V. unfold msgG, updn. destruct (Nat.eqb_spec j k) as [->|N]; [apply Pmu; auto|].
      apply (f_posG _ _ _ I); auto.
    - intros j t a Ht V. unfold msgG, updn at 1. destruct (Nat.eqb_spec j k) as [->|N].
      + fold mu. intros Z. rewrite Hs in Ht. injection Ht as <-.
        assert (Hxz : msgF F G x y k x a = 0).
        { unfold msgF. rewrite updn_other by auto. apply Zmu; auto. }
        assert (Hyz : msgF F G x y k y a = 0).
        { unfold msgF. rewrite updn_same. fold mu. rewrite Z. unfold Qcdiv. ring. }
        destruct He as [[= -> ->]|[= -> ->]]; auto.
      + intros Z. destruct (f_supp _ _ _ I j t a Ht V Z) as [Z1 Z2].
        assert (G' : forall i, F i a = 0 -> msgF F G x y k i a = 0).
        { intros i Hi. unfold msgF, updn. destruct (Nat.eqb_spec i y) as [->|N']; auto.
          rewrite Hi. ring. }
        auto.
    - intros a V. rewrite <- (f_joint _ _ _ I a V).
      destruct (Qprod_split (fun i => msgF F G x y k i a) (seq 0 n) y) as (l1 & P1 & N1 & E1);
        [apply seq_NoDup|apply in_seq; lia|].
      destruct (Qprod_split (fun j => / msgG F G x k j a) (seq 0 m) k) as (l2 & P2 & N2 & E2);
        [apply seq_NoDup|apply in_seq; lia|].
      rewrite E1, E2. rewrite (Qprod_perm (fun i => F i a) _ _ P1), (Qprod_perm (fun j => / G j a) _ _ P2). simpl.
      rewrite (Qprod_ext (fun i => msgF F G x y k i a) (fun i => F i a) l1).
      2:{ intros i Hi. unfold msgF. rewrite updn_other; auto. intros ->; auto. }
      rewrite (Qprod_ext (fun j => / msgG F G x k j a) (fun j => / G j a) l2).
      2:{ intros j Hj. unfold msgG. rewrite updn_other; auto. intros ->; auto. }
      unfold msgF at 1, msgG at 1. rewrite !updn_same. fold mu.
      destruct (Qc_eq_dec (mu a) 0) as [Z|Nz].
      + (* the sender vanishes, so both products do *)
        assert (Q0 : Qprod (fun i => F i a) l1 = 0).
        { apply (Qprod_zero _ _ x); [|apply Zmu; auto].
          assert (Hx : In x (y :: l1)) by (apply (Permutation_in _ P1), in_seq; lia).
          destruct Hx; [congruence|auto]. }
        rewrite Q0. ring.
      + unfold Qcdiv. transitivity (F y a * (mu a * / mu a) * Qprod (fun i => F i a) l1 * (/ G k a * Qprod (fun j => / G j a) l2)).
        * ring.
        * rewrite Qcmult_inv_r by auto. ring.
    - intros u w [[= <- <-]|H].
      + split; auto. intros z Hz N. right; auto.
      + destruct (f_closed _ _ _ I u w H) as [H1 H2]. split; auto. intros z Hz N. right; auto.
    - intros u w j Hin Hj a V. unfold msgG, updn at 1. destruct (Nat.eqb_spec j k) as [->|Nj].
      + destruct (same_edge x y u w k Hk Hj) as [[-> ->]|[-> ->]].
        * unfold msgF. rewrite updn_other by auto. reflexivity.
        * (* the other direction was sent before *)
          destruct Hin as [[= E _]|Hin]; [congruence|].
          pose proof (f_cal _ _ _ I y x k Hin Hj a V) as C.
          unfold msgF. rewrite updn_same. fold mu.
          transitivity (sumover dom (diff (cl y) (lab k)) (fun b => (mu b / G k b) * F y b) a).
          2:{ apply sumover_ext. intros b _ _. ring. }
          rewrite (sumover_mul_l dom _ (fun b => mu b / G k b) (F y) (lab k)).
          -- rewrite <- C. destruct (Qc_eq_dec (G k a) 0) as [Z|Nz].
             ++ rewrite Z. unfold mu. rewrite (supp_msg M F G x y k a I Hk V Z). ring.
             ++ unfold Qcdiv. rewrite <- Qcmult_assoc, (Qcmult_comm (/ G k a)), Qcmult_inv_r by auto. ring.
          -- intros b c E. rewrite (Dmu b c E), (f_depG _ _ _ I k Lk b c E); auto.
          -- intros v Hv. rewrite diff_In. tauto.
      + assert (Nu : u <> y).
        { intros ->. destruct Hin as [[= -> _]|Hin]; [congruence|].
          assert (Nw : w <> x).
          { intros ->. rewrite find_sep_sym in Hj. congruence. }
          destruct (f_closed _ _ _ I y w Hin) as [_ H2]. apply Nm. apply H2; auto.
          unfold nb in *. rewrite jt_nbrs_nbE in *. apply nbE_adj, adj_sym, nbE_adj; auto. }
        destruct Hin as [[= <- <-]|Hin]; [congruence|].
        unfold msgF. rewrite updn_other by auto. apply (f_cal _ _ _ I u w j Hin Hj a V).
  Qed.

  (** ** A calibrated tree carries the marginals *)
  Section Marg.
    Variables (M : list msg) (F G : nat -> assign -> Qc).
    Hypothesis I : FInv M F G.
    Hypothesis HM : forall u w, (u < n)%nat -> In w (nb u) -> In (u, w) M.
    Hypothesis HR : rip cl (seq 0 n) (map ends (jseps jt)).

    Definition sepn (x y : nat) : nat := match find_sep (jseps jt) x y 0 with Some k => k | None => O end.

    Fixpoint belief (t : rtree) (a : assign) : Qc :=
      match t with
      | RNode x ts => F x a * Qprod (fun t' => / G (sepn x (root t')) a * belief t' a) ts
      end.

    Fixpoint elim (t : rtree) : list var :=
      match t with
      | RNode x ts => flat_map (fun t' => diff (cl (root t')) (cl x) ++ elim t') ts
      end.

    Definition tvars (t : rtree) : list var := flat_map cl (nodes t).

    (** Below a child, variables shared with the outside are in the child and in its parent. *)
    Lemma leave t x v z w E : rooted nb (Some x) t -> In z (nodes t) -> ~ In w (nodes t) ->
      (forall e, In e E -> In e (map ends (jseps jt))) ->
      conn (restrict cl E v) z w -> In v (cl (root t)) /\ In v (cl x).
    Proof.
      intros HRt Hz Hw HE C. induction C as [z|z u w A C IH]; [contradiction|].
      assert (A' : adj (map ends (jseps jt)) z u /\ In v (cl z) /\ In v (cl u)).
      { destruct A as [A|A]; apply filter_In in A as [A B]; apply both_true in B as [B1 B2];
        split; auto; [left|right]; auto. }
      destruct A' as (A' & B1 & B2). apply nbE_adj in A'. rewrite <- jt_nbrs_nbE in A'. fold nb in A'.
      destruct (rooted_nb nb t (Some x) z u HRt Hz A') as [Hu|[-> [= ->]]]; auto.
    Qed.

    Lemma rip_child t x v z : rooted nb (Some x) t -> incl (nodes t) (seq 0 n) -> (x < n)%nat ->
      ~ In x (nodes t) -> In z (nodes t) -> In v (cl z) -> In v (cl x) -> In v (cl (root t)).
    Proof.
      intros HRt Inc Lx Nx Hz Vz Vx.
      destruct (leave t x v z x (map ends (jseps jt)) HRt Hz Nx (fun _ H => H)); auto.
      apply HR; auto. apply in_seq; lia.
    Qed.

    Lemma rip_children t t' x v z w : rooted nb (Some x) t ->
      incl (nodes t) (seq 0 n) -> incl (nodes t') (seq 0 n) ->
      In z (nodes t) -> In w (nodes t') -> ~ In w (nodes t) -> In v (cl z) -> In v (cl w) -> In v (cl x).
    Proof.
      intros HRt Inc Inc' Hz Hw Nw Vz Vw.
      destruct (leave t x v z w (map ends (jseps jt)) HRt Hz Nw (fun _ H => H)); auto.
    Qed.

    Lemma elim_spec t : forall p, rooted nb p t -> NoDup (nodes t) -> incl (nodes t) (seq 0 n) ->
      (forall v, In v (elim t) <-> In v (tvars t) /\ ~ In v (cl (root t))) /\ NoDup (elim t).
    Proof.
      induction t as [x ts IH] using rtree_ind'. intros p HRt ND Inc.
      apply rooted_inv in HRt as [P Fr]. rewrite Forall_forall in IH, Fr.
      simpl in ND. inversion ND as [|? ? Nx NDts]; subst. cbn [root].
      assert (Lx : (x < n)%nat).
      { assert (In x (seq 0 n)) by (apply Inc; simpl; auto). apply in_seq in H. lia. }
      assert (IncK : forall t, In t ts -> incl (nodes t) (seq 0 n)).
      { intros t Ht z Hz. apply Inc. simpl. right. apply in_flat_map; eauto. }
      assert (NxK : forall t, In t ts -> ~ In x (nodes t)).
      { intros t Ht H. apply Nx. apply in_flat_map; eauto. }
      assert (K : forall t, In t ts ->
        (forall v, In v (diff (cl (root t)) (cl x) ++ elim t) <-> In v (tvars t) /\ ~ In v (cl x)) /\
        NoDup (diff (cl (root t)) (cl x) ++ elim t)).
      { intros t Ht. destruct (IH t Ht (Some x) (Fr t Ht) (flat_map_NoDup_part nodes ts t NDts Ht) (IncK t Ht)) as [S1 S2].
        assert (RipC : forall v, In v (tvars t) -> In v (cl x) -> In v (cl (root t))).
        { intros v Hv Vx. apply in_flat_map in Hv as (z & Hz & Vz).
          eapply (rip_child t x v z); eauto. }
        split.
        - intros v. rewrite in_app_iff, diff_In, S1. split.
          + intros [[H1 H2]|[H1 H2]]; split; auto.
            apply in_flat_map. exists (root t). split; auto. apply root_nodes.
          + intros [H1 H2]. destruct (in_dec String.string_dec v (cl (root t))); auto.
        - assert (ND1 : NoDup (diff (cl (root t)) (cl x))).
          { apply diff_NoDup, NDcl. assert (H : In (root t) (seq 0 n)) by (apply (IncK t Ht), root_nodes).
            apply in_seq in H. lia. }
          assert (Dis : forall v, In v (diff (cl (root t)) (cl x)) -> ~ In v (elim t)).
          { intros v Hv He. apply diff_In in Hv. apply S1 in He. tauto. }
          clear -ND1 Dis S2. induction (diff (cl (root t)) (cl x)) as [|v vs IHv]; simpl; auto.
          inversion ND1; subst. constructor.
          + rewrite in_app_iff. intros [?|?]; auto. apply (Dis v); auto. left; auto.
          + apply IHv; auto. intros w Hw. apply Dis. right; auto. }
      split.
      - intros v. simpl. rewrite in_flat_map. unfold tvars. simpl. rewrite in_app_iff, in_flat_map. split.
        + intros (t & Ht & Hv). apply (proj1 (K t Ht)) in Hv as [H1 H2]. split; auto. right.
          apply in_flat_map in H1 as (z & Hz & Vz). exists z. split; auto. apply in_flat_map; eauto.
        + intros [[H|(z & Hz & Vz)] Nv]; [contradiction|].
          apply in_flat_map in Hz as (t & Ht & Hz). exists t. split; auto. apply (proj1 (K t Ht)).
          split; auto. apply in_flat_map; eauto.
      - simpl. assert (Dis : forall t t' v, In t ts -> In t' ts -> t <> t' ->
             In v (diff (cl (root t)) (cl x) ++ elim t) -> ~ In v (diff (cl (root t')) (cl x) ++ elim t')).
        { intros t t' v Ht Ht' Nt Hv Hv'. apply (proj1 (K t Ht)) in Hv as [H1 H2].
          apply (proj1 (K t' Ht')) in Hv' as [H3 _]. apply H2.
          apply in_flat_map in H1 as (z & Hz & Vz). apply in_flat_map in H3 as (w & Hw & Vw).
          eapply (rip_children t t' x v z w); eauto.
          intros Hw2. apply Nt. eapply (flat_map_NoDup_uniq nodes ts); eauto. }
        assert (NDr : NoDup ts).
        { clear -NDts. induction ts as [|t ts IHt]; simpl in *; [constructor|]. constructor.
          - intros H. pose proof (root_nodes t) as Hr.
            assert (H2 : In (root t) (flat_map nodes ts)) by (apply in_flat_map; eauto).
            clear -NDts Hr H2. induction (nodes t); simpl in *; [tauto|]. inversion NDts; subst.
            destruct Hr as [->|Hr]; auto. apply H1, in_app_iff; auto.
          - apply IHt. clear -NDts. induction (nodes t); simpl in *; auto. inversion NDts; auto. }
        clear -K Dis NDr. induction ts as [|t ts IHt]; simpl; [constructor|].
        inversion NDr as [|? ? Nt NDr']; subst.
        assert (Tail : NoDup (flat_map (fun t' => diff (cl (root t')) (cl x) ++ elim t') ts)).
        { apply IHt; auto.
          - intros u Hu. apply K. right; auto.
          - intros u u' v Hu Hu'. apply Dis; right; auto. }
        destruct (K t (or_introl eq_refl)) as [_ NDt].
        assert (D2 : forall v, In v (diff (cl (root t)) (cl x) ++ elim t) ->
                       ~ In v (flat_map (fun t' => diff (cl (root t')) (cl x) ++ elim t') ts)).
        { intros v Hv Hf. apply in_flat_map in Hf as (u & Hu & Hf).
          eapply (Dis t u v); eauto; [left; auto|right; auto|]. intros ->. auto. }
        clear -Tail NDt D2. induction (diff (cl (root t)) (cl x) ++ elim t) as [|v vs IHv]; simpl; auto.
        inversion NDt; subst. constructor.
        + rewrite in_app_iff. intros [?|?]; auto. apply (D2 v); auto. left; auto.
        + apply IHv; auto. intros w Hw. apply D2. right; auto.
    Qed.

    Lemma belief_dep t : forall p, rooted nb p t -> incl (nodes t) (seq 0 n) -> dep (tvars t) (belief t).
    Proof.
      induction t as [x ts IH] using rtree_ind'. intros p HRt Inc a b E.
      apply rooted_inv in HRt as [P Fr]. rewrite Forall_forall in IH, Fr. simpl.
      assert (Lx : (x < n)%nat).
      { assert (In x (seq 0 n)) by (apply Inc; simpl; auto). apply in_seq in H. lia. }
      rewrite (f_depF _ _ _ I x Lx a b).
      2:{ intros v Hv. apply E. unfold tvars. simpl. apply in_app_iff; auto. }
      f_equal. apply Qprod_ext. intros t Ht.
      assert (Hnb : In (root t) (nb x)).
      { apply (Permutation_in _ (Permutation_sym P)), in_app_iff. right. apply in_map; auto. }
      destruct (nb_find x (root t) Hnb) as (k & Hk). unfold sepn. rewrite Hk.
      destruct (edge_facts x (root t) k Hk) as (Lk & _ & _ & _ & Lab & _).
      rewrite (f_depG _ _ _ I k Lk a b).
      2:{ intros v Hv. apply E. unfold tvars. simpl. apply in_app_iff. left. apply Lab; auto. }
      f_equal. apply (IH t Ht (Some x) (Fr t Ht)).
      - intros z Hz. apply Inc. simpl. right. apply in_flat_map; eauto.
      - intros v Hv. apply E. unfold tvars in *. simpl. apply in_app_iff. right.
        apply in_flat_map in Hv as (z & Hz & Vz). apply in_flat_map. exists z. split; auto.
        apply in_flat_map; eauto.
    Qed.

    Theorem belief_sum t : forall p, rooted nb p t -> NoDup (nodes t) -> incl (nodes t) (seq 0 n) ->
      forall a, valid a -> sumover dom (elim t) (belief t) a = F (root t) a.
    Proof.
      induction t as [x ts IH] using rtree_ind'. intros p HRt ND Inc a V.
      pose proof HRt as HRt0. apply rooted_inv in HRt as [P Fr]. rewrite Forall_forall in IH, Fr.
      simpl in ND. inversion ND as [|? ? Nx NDts]; subst. cbn [root].
      assert (Lx : (x < n)%nat).
      { assert (In x (seq 0 n)) by (apply Inc; simpl; auto). apply in_seq in H. lia. }
      assert (IncK : forall t, In t ts -> incl (nodes t) (seq 0 n)).
      { intros t Ht z Hz. apply Inc. simpl. right. apply in_flat_map; eauto. }
      assert (NxK : forall t, In t ts -> ~ In x (nodes t)).
      { intros t Ht H. apply Nx. apply in_flat_map; eauto. }
      set (part := fun t' => diff (cl (root t')) (cl x) ++ elim t').
      assert (PartS : forall t, In t ts -> forall v, In v (part t) -> In v (tvars t) /\ ~ In v (cl x)).
      { intros t Ht v Hv.
        destruct (elim_spec t (Some x) (Fr t Ht) (flat_map_NoDup_part nodes ts t NDts Ht) (IncK t Ht)) as [S1 _].
        unfold part in Hv. rewrite in_app_iff, diff_In, S1 in Hv. destruct Hv as [[H1 H2]|[H1 H2]].
        - split; auto. apply in_flat_map. exists (root t). split; auto. apply root_nodes.
        - split; auto. intros Vx. apply H2. apply in_flat_map in H1 as (z & Hz & Vz).
          eapply (rip_child t x v z); eauto. }
      assert (Edge : forall t, In t ts -> exists k, sepn x (root t) = k /\
                 find_sep (jseps jt) x (root t) 0 = Some k).
      { intros t Ht. assert (Hnb : In (root t) (nb x)).
        { apply (Permutation_in _ (Permutation_sym P)), in_app_iff. right. apply in_map; auto. }
        destruct (nb_find x (root t) Hnb) as (k & Hk). exists k. unfold sepn. rewrite Hk. auto. }
      (* one child: its factor sums to 1, or the separator vanishes *)
      assert (One : forall t, In t ts -> forall b, valid b ->
                sumover dom (part t) (fun c => / G (sepn x (root t)) c * belief t c) b
                = / G (sepn x (root t)) b * G (sepn x (root t)) b).
      { intros t Ht b Vb. destruct (Edge t Ht) as (k & -> & Hk).
        destruct (edge_facts x (root t) k Hk) as (Lk & _ & Lr & _ & Lab & _).
        rewrite (sumover_mul_l dom (part t) (fun c => / G k c) (belief t) (lab k)).
        - f_equal. unfold part. rewrite sumover_app.
          rewrite (sumover_ext dom _ _ (F (root t))).
          + assert (Hm : In (root t, x) M).
            { apply HM; auto. unfold nb in *. rewrite jt_nbrs_nbE. apply nbE_adj, adj_sym, nbE_adj.
              rewrite <- jt_nbrs_nbE. apply (Permutation_in _ (Permutation_sym P)), in_app_iff. right. apply in_map; auto. }
            rewrite (f_cal _ _ _ I (root t) x k Hm) by (auto; rewrite find_sep_sym; auto).
            assert (E : diff (cl (root t)) (cl x) = diff (cl (root t)) (lab k)).
            { unfold diff. apply filter_ext_in. intros v Hv. f_equal.
              destruct (smem v (cl x)) eqn:E1, (smem v (lab k)) eqn:E2; auto.
              - apply smem_In in E1. apply smem_false in E2. exfalso. apply E2, Lab; auto.
              - apply smem_In in E2. apply smem_false in E1. exfalso. apply E1, Lab; auto. }
            rewrite E. reflexivity.
          + intros c Hc Hd. apply (IH t Ht (Some x) (Fr t Ht) (flat_map_NoDup_part nodes ts t NDts Ht) (IncK t Ht)).
            eapply valid_part; eauto.
        - intros c d E. rewrite (f_depG _ _ _ I k Lk c d E); auto.
        - intros v Hv Hp. apply (PartS t Ht) in Hp. apply Lab in Hv. tauto. }
      (* factor the sum over the children *)
      assert (Split : forall us, incl us ts -> NoDup us -> forall b, valid b ->
                sumover dom (flat_map part us)
                  (fun c => Qprod (fun t => / G (sepn x (root t)) c * belief t c) us) b
                = Qprod (fun t => / G (sepn x (root t)) b * G (sepn x (root t)) b) us).
      { induction us as [|t us IHu]; intros Iu NDu b Vb; [reflexivity|]. inversion NDu as [|? ? Nt NDu']; subst.
        assert (Ht : In t ts) by (apply Iu; left; auto).
        simpl flat_map. cbn [Qprod fold_right].
        rewrite (sumover_mul_split dom (part t) (flat_map part us)
                   (fun c => / G (sepn x (root t)) c * belief t c)
                   (fun c => Qprod (fun t => / G (sepn x (root t)) c * belief t c) us)
                   (cl x ++ tvars t) (cl x ++ flat_map tvars us)).
        - rewrite One by auto. f_equal. apply IHu; auto. intros u Hu; apply Iu; right; auto.
        - intros c d E. destruct (Edge t Ht) as (k & -> & Hk).
          destruct (edge_facts x (root t) k Hk) as (Lk & _ & _ & _ & Lab & _).
          rewrite (f_depG _ _ _ I k Lk c d).
          2:{ intros v Hv. apply E, in_app_iff. left. apply Lab; auto. }
          rewrite (belief_dep t (Some x) (Fr t Ht) (IncK t Ht) c d); auto.
          intros v Hv. apply E, in_app_iff; auto.
        - intros c d E. apply Qprod_ext. intros u Hu. assert (Hu' : In u ts) by (apply Iu; right; auto).
          destruct (Edge u Hu') as (k & -> & Hk).
          destruct (edge_facts x (root u) k Hk) as (Lk & _ & _ & _ & Lab & _).
          rewrite (f_depG _ _ _ I k Lk c d).
          2:{ intros v Hv. apply E, in_app_iff. left. apply Lab; auto. }
          rewrite (belief_dep u (Some x) (Fr u Hu') (IncK u Hu') c d); auto.
          intros v Hv. apply E, in_app_iff. right. apply in_flat_map; eauto.
        - intros v Hv Hp. apply in_flat_map in Hp as (u & Hu & Hp).
          assert (Hu' : In u ts) by (apply Iu; right; auto).
          destruct (PartS u Hu' v Hp) as [H1 H2]. apply in_app_iff in Hv as [Hv|Hv]; auto.
          apply H2. apply in_flat_map in Hv as (z & Hz & Vz). apply in_flat_map in H1 as (w & Hw & Vw).
          eapply (rip_children t u x v z w); eauto.
          intros Hw2. apply Nt. replace t with u; auto. eapply (flat_map_NoDup_uniq nodes ts); eauto.
        - intros v Hv Hp. destruct (PartS t Ht v Hp) as [H1 H2]. apply in_app_iff in Hv as [Hv|Hv]; auto.
          apply H2. apply in_flat_map in Hv as (u & Hu & Hv). assert (Hu' : In u ts) by (apply Iu; right; auto).
          apply in_flat_map in Hv as (z & Hz & Vz). apply in_flat_map in H1 as (w & Hw & Vw).
          eapply (rip_children t u x v w z); eauto.
          intros Hw2. apply Nt. replace t with u; auto. eapply (flat_map_NoDup_uniq nodes ts); eauto. }
      assert (NDr : NoDup ts).
      { clear -NDts. induction ts as [|t ts IHt]; simpl in *; [constructor|]. constructor.
        - intros H. pose proof (root_nodes t) as Hr.
          assert (H2 : In (root t) (flat_map nodes ts)) by (apply in_flat_map; eauto).
          clear -NDts Hr H2. induction (nodes t); simpl in *; [tauto|]. inversion NDts; subst.
          destruct Hr as [->|Hr]; auto. apply H1, in_app_iff; auto.
        - apply IHt. clear -NDts. induction (nodes t); simpl in *; auto. inversion NDts; auto. }
      change (elim (RNode x ts)) with (flat_map part ts). cbn [belief].
      rewrite (sumover_mul_l dom (flat_map part ts) (F x) _ (cl x)).
      - rewrite Split; auto; [|apply incl_refl].
        destruct (Qc_eq_dec (F x a) 0) as [Z|Nz]; [rewrite Z; ring|].
        rewrite (Qprod_ext _ (fun _ => 1)), Qprod_one; [ring|].
        intros t Ht. destruct (Edge t Ht) as (k & -> & Hk).
        rewrite Qcmult_comm. apply Qcmult_inv_r. intros Z. apply Nz.
        apply (proj1 (supp_both M F G x (root t) k a I Hk V Z)).
      - apply (f_depF _ _ _ I); auto.
      - intros v Hv Hp. apply in_flat_map in Hp as (t & Ht & Hp). apply (PartS t Ht) in Hp. tauto.
    Qed.
  End Marg.
End Calib.
