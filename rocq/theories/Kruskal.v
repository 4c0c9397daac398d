(** * Kruskal: the greedy choice of separators (bbn.py:951-1009) yields a junction tree. *)
From Coq Require Import List Bool Arith Lia String Permutation Sorted Relations.
From Verif Require Import Base BbnModel Forest Elim Triang.
Import ListNotations.
Local Open Scope list_scope.

Definition ends (s : sepset) : edge := (ssx s, ssy s).

(** ** Candidate separators *)
Lemma pairs2_seq_lt i j a n : In (i, j) (pairs2 (seq a n)) -> i < j /\ a <= i /\ j < a + n.
Proof.
  revert a. induction n as [|n IH]; intros a; simpl; [tauto|].
  rewrite in_app_iff. intros [H|H].
  - apply in_map_iff in H as (y & [= <- <-] & Hy). apply in_seq in Hy. lia.
  - apply IH in H. lia.
Qed.

Lemma all_sepsets_In cl s : In s (all_sepsets cl) ->
  ssx s < ssy s /\ ssy s < List.length cl /\
  sslabel s = inter (clf cl (ssx s)) (clf cl (ssy s)) /\ sslabel s <> [].
Proof.
  unfold all_sepsets. intros H. apply in_flat_map in H as ([i j] & Hij & H).
  apply pairs2_seq_lt in Hij. destruct (inter (nth i cl []) (nth j cl [])) eqn:E; simpl in H; [tauto|].
  destruct H as [<-|[]]. simpl. unfold clf. rewrite E. repeat split; try lia. discriminate.
Qed.

Lemma inter_In x a b : In x (inter a b) <-> In x a /\ In x b.
Proof. unfold inter. rewrite filter_In, smem_In. tauto. Qed.

Lemma inter_sym_length a b : NoDup a -> NoDup b ->
  List.length (inter a b) = List.length (inter b a).
Proof.
  intros Ha Hb. apply Permutation_length. apply NoDup_Permutation.
  - apply NoDup_filter; auto.
  - apply NoDup_filter; auto.
  - intros x. rewrite !inter_In. tauto.
Qed.

(** Two different cliques with a common variable are joined by a candidate. *)
Lemma all_sepsets_complete cl i j v :
  i < List.length cl -> j < List.length cl -> i <> j ->
  In v (clf cl i) -> In v (clf cl j) ->
  exists s, In s (all_sepsets cl) /\
    ((ends s = (i, j) /\ sslabel s = inter (clf cl i) (clf cl j)) \/
     (ends s = (j, i) /\ sslabel s = inter (clf cl j) (clf cl i))).
Proof.
  intros Li Lj N Vi Vj.
  assert (G : forall a b, In (a, b) (pairs2 (seq 0 (List.length cl))) -> In v (clf cl a) -> In v (clf cl b) ->
    exists s, In s (all_sepsets cl) /\ ends s = (a, b) /\ sslabel s = inter (clf cl a) (clf cl b)).
  { intros a b Hab Va Vb. exists (mkSep a b (inter (clf cl a) (clf cl b))). split; auto.
    unfold all_sepsets. apply in_flat_map. exists (a, b). split; auto. fold (clf cl a) (clf cl b).
    assert (In v (inter (clf cl a) (clf cl b))) by (apply inter_In; auto).
    destruct (inter (clf cl a) (clf cl b)); [contradiction|left; auto]. }
  destruct (pairs2_total (seq 0 (List.length cl)) i j) as [H|H]; auto; try (apply in_seq; lia).
  - destruct (G i j H Vi Vj) as (s & ? & ? & ?). exists s; auto.
  - destruct (G j i H Vj Vi) as (s & ? & ? & ?). exists s; auto.
Qed.

Lemma sep_leb_total cl s t : sep_leb cl s t = true \/ sep_leb cl t s = true.
Proof.
  unfold sep_leb. destruct (Nat.ltb_spec (mass t) (mass s)); auto.
  destruct (Nat.ltb_spec (mass s) (mass t)); auto.
  rewrite !Nat.leb_le. lia.
Qed.

Lemma sep_leb_trans cl s t u : sep_leb cl s t = true -> sep_leb cl t u = true -> sep_leb cl s u = true.
Proof.
  unfold sep_leb.
  destruct (Nat.ltb_spec (mass t) (mass s)), (Nat.ltb_spec (mass s) (mass t)),
           (Nat.ltb_spec (mass u) (mass t)), (Nat.ltb_spec (mass t) (mass u)),
           (Nat.ltb_spec (mass u) (mass s)), (Nat.ltb_spec (mass s) (mass u));
  auto; try lia; try discriminate; rewrite ?Nat.leb_le; lia.
Qed.

Lemma sep_leb_mass cl s t : sep_leb cl s t = true -> mass t <= mass s.
Proof.
  unfold sep_leb. destruct (Nat.ltb_spec (mass t) (mass s)); [lia|].
  destruct (Nat.ltb_spec (mass s) (mass t)); [discriminate|lia].
Qed.

(** ** The forest of trees represents connectivity *)
Record FI (n : nat) (fr : list tree) (F : list edge) : Prop := {
  fi_perm : Permutation (List.concat fr) (seq 0 n);
  fi_ne : forall t, In t fr -> t <> [];
  fi_conn : forall i j, i < n -> j < n -> (conn F i j <-> exists t, In t fr /\ In i t /\ In j t)
}.

Lemma concat_NoDup_tree {A} (ls : list (list A)) t u x :
  NoDup (List.concat ls) -> In t ls -> In u ls -> In x t -> In x u -> t = u.
Proof.
  induction ls as [|l ls IH]; simpl; [tauto|].
  intros ND Ht Hu Xt Xu.
  assert (Dis : forall y, In y l -> In y (List.concat ls) -> False).
  { intros y H1 H2. clear -ND H1 H2. induction l as [|z l IHl]; simpl in *; [tauto|].
    inversion ND; subst. destruct H1 as [->|H1]; auto. apply H3. apply in_app_iff; auto. }
  assert (NDl : NoDup (List.concat ls)).
  { clear -ND. induction l; simpl in *; auto. inversion ND; auto. }
  destruct Ht as [<-|Ht]; destruct Hu as [<-|Hu]; auto.
  - exfalso. apply (Dis x); auto. apply in_concat; eauto.
  - exfalso. apply (Dis x); auto. apply in_concat; eauto.
Qed.

Lemma concat_NoDup_trees {A} (ls : list (list A)) :
  NoDup (List.concat ls) -> (forall t, In t ls -> t <> []) -> NoDup ls.
Proof.
  induction ls as [|l ls IH]; simpl; intros ND Ne; [constructor|].
  assert (NDl : NoDup (List.concat ls)).
  { clear -ND. induction l; simpl in *; auto. inversion ND; auto. }
  constructor; auto. intros H. destruct l as [|x l]; [apply (Ne []); auto|].
  simpl in ND. inversion ND; subst. apply H2. apply in_app_iff. right. apply in_concat.
  exists (x :: l). simpl; auto.
Qed.

Section FI.
  Variables (n : nat) (fr : list tree) (F : list edge).
  Hypothesis I : FI n fr F.

  Lemma FI_NoDup : NoDup (List.concat fr).
  Proof. apply (Permutation_NoDup (Permutation_sym (fi_perm _ _ _ I))). apply seq_NoDup. Qed.

  Lemma FI_tree i : i < n -> exists t, In t fr /\ In i t.
  Proof.
    intros L. assert (H : In i (List.concat fr)).
    { apply (Permutation_in i (Permutation_sym (fi_perm _ _ _ I))). apply in_seq; lia. }
    apply in_concat in H. auto.
  Qed.

  Lemma FI_uniq t u i : In t fr -> In u fr -> In i t -> In i u -> t = u.
  Proof. apply concat_NoDup_tree, FI_NoDup. Qed.

  Lemma tree_of_ok i t : In t fr -> In i t -> tree_of fr i = Ok t.
  Proof.
    intros Ht Hi. unfold tree_of.
    assert (E : filter (fun t => existsb (Nat.eqb i) t) fr = [t]).
    { pose proof (concat_NoDup_trees fr FI_NoDup (fi_ne _ _ _ I)) as ND.
      assert (U : forall u, In u fr -> existsb (Nat.eqb i) u = true -> u = t).
      { intros u Hu E. apply existsb_exists in E as (k & Hk & E). apply Nat.eqb_eq in E. subst k.
        eapply FI_uniq; eauto. }
      assert (Ti : existsb (Nat.eqb i) t = true).
      { apply existsb_exists. exists i. split; auto. apply Nat.eqb_refl. }
      clear I. induction fr as [|u us IH]; simpl in *; [tauto|]. inversion ND; subst.
      destruct (existsb (Nat.eqb i) u) eqn:E.
      - assert (u = t) by (apply U; auto). subst u. f_equal.
        destruct (filter (fun t0 => existsb (Nat.eqb i) t0) us) as [|w ws] eqn:Ew; auto.
        exfalso. assert (Hw : In w (filter (fun t0 => existsb (Nat.eqb i) t0) us))
          by (rewrite Ew; left; auto).
        apply filter_In in Hw as [Hw1 Hw2]. assert (w = t) by (apply U; auto). subst. auto.
      - destruct Ht as [->|Ht]; [congruence|]. apply IH; auto. }
    rewrite E. auto.
  Qed.

  Lemma same_tree_spec t u : In t fr -> In u fr -> (same_tree t u = true <-> t = u).
  Proof.
    intros Ht Hu. destruct t as [|x t]; [exfalso; exact (fi_ne _ _ _ I _ Ht eq_refl)|].
    destruct u as [|y u]; [exfalso; exact (fi_ne _ _ _ I _ Hu eq_refl)|]. unfold same_tree.
    rewrite Nat.eqb_eq. split; [|congruence]. intros ->.
    eapply FI_uniq; eauto; left; auto.
  Qed.

  Lemma insertable_ok s : ssx s < n -> ssy s < n ->
    exists b, insertable fr s = Ok b /\ (b = true <-> ~ conn F (ssx s) (ssy s)).
  Proof.
    intros Lx Ly. destruct (FI_tree _ Lx) as (tx & Hx & Ix). destruct (FI_tree _ Ly) as (ty & Hy & Iy).
    unfold insertable. rewrite (tree_of_ok _ _ Hx Ix), (tree_of_ok _ _ Hy Iy). simpl.
    eexists; split; [reflexivity|]. rewrite negb_true_iff, (fi_conn _ _ _ I) by auto.
    rewrite <- not_true_iff_false, same_tree_spec by auto. split.
    - intros N (t & Ht & It & Jt). apply N.
      rewrite (FI_uniq tx t (ssx s)), (FI_uniq ty t (ssy s)); auto.
    - intros N ->. apply N. eauto.
  Qed.

  Lemma insert_ok s : ssx s < n -> ssy s < n -> ~ conn F (ssx s) (ssy s) ->
    exists fr', insert_sep fr s = Ok fr' /\ FI n fr' (ends s :: F) /\
                S (List.length fr') = List.length fr.
  Proof.
    intros Lx Ly NC. destruct (FI_tree _ Lx) as (tx & Hx & Ix). destruct (FI_tree _ Ly) as (ty & Hy & Iy).
    unfold insert_sep. rewrite (tree_of_ok _ _ Hx Ix), (tree_of_ok _ _ Hy Iy). simpl.
    assert (Nxy : tx <> ty).
    { intros ->. apply NC. apply (fi_conn _ _ _ I); eauto. }
    assert (Ef : filter (fun i => negb (existsb (Nat.eqb i) tx)) ty = ty).
    { apply filter_id. intros k Hk. rewrite negb_true_iff.
      destruct (existsb (Nat.eqb k) tx) eqn:E; auto. exfalso.
      apply existsb_exists in E as (k' & Hk' & E). apply Nat.eqb_eq in E. subst k'.
      apply Nxy. eapply FI_uniq; eauto. }
    rewrite Ef. set (h := fun t => if same_tree t tx then [tx ++ ty] else if same_tree t ty then [] else [t]).
    eexists; split; [reflexivity|].
    pose proof (concat_NoDup_trees fr FI_NoDup (fi_ne _ _ _ I)) as ND.
    assert (Hh : forall t, In t fr -> (t = tx /\ h t = [tx ++ ty]) \/ (t = ty /\ h t = []) \/
                           (t <> tx /\ t <> ty /\ h t = [t])).
    { intros t Ht. unfold h.
      destruct (same_tree t tx) eqn:E1; [apply same_tree_spec in E1; auto|].
      destruct (same_tree t ty) eqn:E2; [apply same_tree_spec in E2; auto|].
      right; right. repeat split; auto; intros ->.
      - rewrite (proj2 (same_tree_spec tx tx Hx Hx) eq_refl) in E1. discriminate.
      - rewrite (proj2 (same_tree_spec ty ty Hy Hy) eq_refl) in E2. discriminate. }
    assert (Mem : forall t, In t (flat_map h fr) <->
                    t = tx ++ ty \/ (In t fr /\ t <> tx /\ t <> ty)).
    { intros t. rewrite in_flat_map. split.
      - intros (u & Hu & Ht). destruct (Hh u Hu) as [[-> E]|[[-> E]|(N1 & N2 & E)]]; rewrite E in Ht;
        simpl in Ht; [intuition|tauto|]. destruct Ht as [<-|[]]. auto.
      - intros [->|(Ht & N1 & N2)].
        + exists tx. split; auto. destruct (Hh tx Hx) as [[_ E]|[[E' _]|(N1 & _)]]; try congruence.
          rewrite E. left; auto.
        + exists t. split; auto. destruct (Hh t Ht) as [[E' _]|[[E' _]|(_ & _ & E)]]; try congruence.
          rewrite E. left; auto. }
    (* decompose fr into tx, ty and the rest *)
    destruct (in_split tx fr Hx) as (l1 & l2 & Efr).
    assert (P1 : Permutation fr (tx :: l1 ++ l2)) by (rewrite Efr; symmetry; apply Permutation_middle).
    assert (Hy' : In ty (l1 ++ l2)).
    { apply (Permutation_in _ P1) in Hy. destruct Hy; [congruence|auto]. }
    destruct (in_split ty _ Hy') as (r1 & r2 & Er).
    assert (P2 : Permutation fr (tx :: ty :: r1 ++ r2)).
    { rewrite P1, Er. constructor. symmetry. apply Permutation_middle. }
    assert (Rest : forall t, In t (r1 ++ r2) -> h t = [t]).
    { clear Efr. intros t Ht. pose proof (Permutation_NoDup P2 ND) as ND2. inversion ND2 as [|? ? A1 ND3]; subst.
      inversion ND3 as [|? ? A2 ND4]; subst.
      assert (In t fr) by (apply (Permutation_in t (Permutation_sym P2)); right; right; auto).
      destruct (Hh t H) as [[-> _]|[[-> _]|(_ & _ & E)]]; auto.
      - exfalso. apply A1. right; auto.
      - contradiction. }
    assert (P3 : Permutation (flat_map h fr) ((tx ++ ty) :: r1 ++ r2)).
    { rewrite (Permutation_flat_map h P2). simpl.
      destruct (Hh tx Hx) as [[_ E]|[[E' _]|(N1 & _)]]; try congruence. rewrite E.
      destruct (Hh ty Hy) as [[E1 _]|[[_ E1]|(_ & N1 & _)]]; try congruence. rewrite E1.
      simpl. constructor. clear -Rest. induction (r1 ++ r2) as [|u us IH]; simpl; auto.
      rewrite Rest by (left; auto). simpl. constructor. apply IH. intros; apply Rest; right; auto. }
    assert (Pc : forall a b : list tree, Permutation a b -> Permutation (List.concat a) (List.concat b)).
    { intros a b P. induction P; simpl; auto.
      - apply Permutation_app_head; auto.
      - rewrite !app_assoc. apply Permutation_app_tail, Permutation_app_comm.
      - etransitivity; eauto. }
    split.
    - constructor.
      + rewrite (Pc _ _ P3). simpl. rewrite <- app_assoc. rewrite <- (fi_perm _ _ _ I).
        rewrite (Pc _ _ P2). simpl. reflexivity.
      + intros t Ht. apply Mem in Ht as [->|(Ht & _)]; [|eapply fi_ne; eauto].
        destruct tx; [contradiction|discriminate].
      + intros i j Li Lj. unfold ends. rewrite conn_cons. rewrite !(fi_conn _ _ _ I) by auto. split.
        * intros [(t & Ht & Hi & Hj)|[[(t & Ht & Hi & Hj) (u & Hu & Hk & Hl)]|[(t & Ht & Hi & Hj) (u & Hu & Hk & Hl)]]].
          -- destruct (Hh t Ht) as [[-> _]|[[-> _]|(N1 & N2 & _)]].
             ++ exists (tx ++ ty). split; [apply Mem; auto|]. rewrite !in_app_iff; auto.
             ++ exists (tx ++ ty). split; [apply Mem; auto|]. rewrite !in_app_iff; auto.
             ++ exists t. split; [apply Mem; auto|auto].
          -- exists (tx ++ ty). split; [apply Mem; auto|]. rewrite !in_app_iff.
             rewrite (FI_uniq tx t (ssx s)), (FI_uniq ty u (ssy s)); auto.
          -- exists (tx ++ ty). split; [apply Mem; auto|]. rewrite !in_app_iff.
             rewrite (FI_uniq tx u (ssx s)), (FI_uniq ty t (ssy s)); auto.
        * intros (t & Ht & Hi & Hj). apply Mem in Ht as [->|(Ht & _)]; [|left; eauto].
          rewrite in_app_iff in Hi, Hj. destruct Hi as [Hi|Hi], Hj as [Hj|Hj].
          -- left; eauto.
          -- right; left. split; eauto.
          -- right; right. split; eauto.
          -- left; eauto.
    - change (S (List.length (flat_map h fr)) = List.length fr).
      rewrite (Permutation_length P3), (Permutation_length P2). simpl. auto.
  Qed.
End FI.

Lemma first_insertable_ok n fr F deco :
  FI n fr F -> (forall s, In s deco -> ssx s < n /\ ssy s < n) ->
  (exists s, In s deco /\ ~ conn F (ssx s) (ssy s)) ->
  exists pre s post, deco = pre ++ s :: post /\ first_insertable fr deco = Ok (Some s) /\
    ~ conn F (ssx s) (ssy s) /\ (forall t, In t pre -> conn F (ssx t) (ssy t)).
Proof.
  intros I. induction deco as [|s deco IH]; intros Hb (t & Ht & Nt); [destruct Ht|].
  destruct (Hb s (or_introl eq_refl)) as [Lx Ly].
  destruct (insertable_ok n fr F I s Lx Ly) as (b & Eb & Sb). simpl. rewrite Eb. simpl.
  destruct b.
  - exists [], s, deco. simpl. repeat split; auto; [apply Sb; auto|intros ? []].
  - assert (C : conn F (ssx s) (ssy s)).
    { destruct (conn_dec F (ssx s) (ssy s)); auto. apply Sb in n0. discriminate. }
    destruct IH as (pre & u & post & E & Ef & Nu & Hpre).
    + intros; apply Hb; right; auto.
    + exists t. split; auto. destruct Ht as [<-|Ht]; [contradiction|auto].
    + exists (s :: pre), u, post. rewrite E. repeat split; auto; [rewrite <- E; auto|].
      intros w [<-|Hw]; auto.
Qed.

Definition good_sched (sc : sched) : Prop :=
  (forall l, Permutation l (tie sc l)) /\
  (forall k i l, Permutation l (vis sc k i l)).

Section Loop.
  Variables (sc : sched) (cl : list (list var)).
  Hypothesis GS : good_sched sc.
  Let n := List.length cl.
  Hypothesis ND : forall i, i < n -> NoDup (clf cl i).
  Hypothesis AllC : forall i j, i < n -> j < n -> conn (map ends (all_sepsets cl)) i j.

  Lemma kruskal_ok fuel : forall S fr ins R,
    FI n fr (map ends ins) ->
    JT (clf cl) (seq 0 n) (map ends ins ++ R) ->
    (forall s, In s S -> In s (all_sepsets cl)) ->
    (forall s, In s (all_sepsets cl) -> In s S \/ conn (map ends ins) (ssx s) (ssy s)) ->
    (forall s, In s ins -> In s (all_sepsets cl)) ->
    List.length fr + List.length ins = n -> fr <> [] ->
    n - 1 - List.length ins <= fuel ->
    exists t ins', kruskal fuel sc cl S fr ins = Ok ([t], ins') /\
      Permutation t (seq 0 n) /\ JT (clf cl) (seq 0 n) (map ends ins') /\
      (forall s, In s ins' -> In s (all_sepsets cl)).
  Proof.
    induction fuel as [|fuel IH]; intros S fr ins R I J HS HS2 Hins Len Ne Fu.
    - assert (E : List.length ins <? List.length cl - 1 = false) by (apply Nat.ltb_ge; fold n; lia).
      cbn [kruskal]. rewrite E.
      assert (L1 : List.length fr = 1) by (destruct fr; simpl in *; [congruence|lia]).
      destruct fr as [|t [|]]; try discriminate. exists t, ins. split; auto.
      pose proof (fi_perm _ _ _ I) as P. simpl in P. rewrite app_nil_r in P. split; auto. split; auto.
      assert (R = []).
      { eapply spanning_part; [exact J|]. intros i j Hi Hj. apply in_seq in Hi, Hj.
        apply (fi_conn _ _ _ I); try lia. exists t.
        split; [left; auto|split; apply (Permutation_in _ (Permutation_sym P)); apply in_seq; lia]. }
      subst R. rewrite app_nil_r in J. auto.
    - cbn [kruskal]. destruct (List.length ins <? List.length cl - 1) eqn:E.
      + apply Nat.ltb_lt in E. fold n in E.
        (* there are two trees, hence an insertable candidate *)
        assert (Ex : exists i j, i < n /\ j < n /\ ~ conn (map ends ins) i j).
        { destruct fr as [|t1 [|t2 fr0]]; simpl in Len; try lia.
          destruct t1 as [|i t1]; [exfalso; eapply (fi_ne _ _ _ I); [left; auto|auto]|].
          destruct t2 as [|j t2]; [exfalso; eapply (fi_ne _ _ _ I); [right; left; auto|auto]|].
          assert (Hb : forall k, In k (List.concat ((i :: t1) :: (j :: t2) :: fr0)) -> k < n).
          { intros k Hk. apply (Permutation_in _ (fi_perm _ _ _ I)) in Hk. apply in_seq in Hk. lia. }
          assert (Li : i < n) by (apply Hb; simpl; auto).
          assert (Lj : j < n) by (apply Hb; simpl; right; apply in_app_iff; right; simpl; auto).
          exists i, j. split; auto. split; auto. rewrite (fi_conn _ _ _ I) by auto.
          intros (t & Ht & Hi & Hj).
          assert (t = i :: t1) by (apply (FI_uniq _ _ _ I) with (i := i); simpl; auto).
          assert (t = j :: t2) by (apply (FI_uniq _ _ _ I) with (i := j); simpl; auto).
          pose proof (FI_NoDup _ _ _ I) as NDc. subst t. injection H0 as <- <-.
          simpl in NDc. inversion NDc as [|? ? A1 _]; subst. apply A1. apply in_app_iff. right; left; auto. }
        assert (Cand : exists s, In s S /\ ~ conn (map ends ins) (ssx s) (ssy s)).
        { destruct Ex as (i & j & Li & Lj & Nij).
          assert (Dec : forall l, (exists s, In s l /\ ~ conn (map ends ins) (ssx s) (ssy s)) \/
                                  (forall s, In s l -> conn (map ends ins) (ssx s) (ssy s))).
          { induction l as [|s l IHl]; [right; intros ? []|].
            destruct (conn_dec (map ends ins) (ssx s) (ssy s)).
            - destruct IHl as [(u & Hu & Nu)|Hall]; [left; exists u; split; [right|]; auto|].
              right. intros u [<-|Hu]; auto.
            - left. exists s. split; [left|]; auto. }
          destruct (Dec (all_sepsets cl)) as [(s & Hs & Ns)|Hall].
          - exists s. split; auto. destruct (HS2 s Hs); [auto|contradiction].
          - exfalso. apply Nij. pose proof (AllC i j Li Lj) as C. clear -C Hall.
            induction C as [x|x y z A C IH]; [constructor|].
            eapply conn_trans; [|exact IH].
            destruct A as [A|A]; apply in_map_iff in A as (s & [= <- <-] & Hs).
            + apply Hall; auto.
            + apply conn_sym, Hall; auto. }
        set (deco := isort (sep_leb cl) (tie sc S)).
        assert (Hdeco : forall s, In s deco <-> In s S).
        { intros s. unfold deco. rewrite isort_In. split; apply Permutation_in;
          [symmetry|]; apply (proj1 GS). }
        destruct (first_insertable_ok n fr (map ends ins) deco I) as (pre & s & post & Ed & Ef & Ns & Hpre).
        { intros s Hs. apply Hdeco, HS, all_sepsets_In in Hs. fold n in Hs. lia. }
        { destruct Cand as (s & Hs & Ns). exists s. split; auto. apply Hdeco; auto. }
        destruct deco as [|d0 ds] eqn:Ed0; [destruct pre; discriminate|]. rewrite <- Ed0 in *.
        rewrite Ef. cbn [bind].
        assert (HsS : In s S) by (apply Hdeco; rewrite Ed, in_app_iff; right; left; auto).
        assert (HsA : In s (all_sepsets cl)) by auto.
        destruct (all_sepsets_In cl s HsA) as (Lxy & Ly & Lab & LabN). fold n in Ly.
        assert (Lx : ssx s < n) by lia.
        destruct (insert_ok n fr (map ends ins) I s Lx Ly Ns) as (fr' & Ei & I' & Len').
        rewrite Ei. cbn [bind].
        assert (Max : forall t, In t S -> ~ conn (map ends ins) (ssx t) (ssy t) -> mass t <= mass s).
        { intros t Ht Nt. assert (Htd : In t deco) by (apply Hdeco; auto).
          rewrite Ed, in_app_iff in Htd. destruct Htd as [Htd|[<-|Htd]]; auto.
          - apply Hpre in Htd. contradiction.
          - apply (sep_leb_mass cl). pose proof (isort_sorted (sep_leb cl) (sep_leb_total cl)
              (sep_leb_trans cl) (tie sc S)) as Sd. fold deco in Sd. rewrite Ed in Sd.
            clear -Sd Htd. induction pre as [|p pre IHp]; simpl in Sd; inversion Sd; subst; auto.
            rewrite Forall_forall in H2. auto. }
        destruct (exchange (clf cl) (seq 0 n) (map ends ins ++ R) (map ends ins) R (ssx s) (ssy s))
          as (R' & J'); auto.
        { apply in_seq; lia. } { apply in_seq; lia. }
        { intros i Hi. apply in_seq in Hi. apply ND; lia. }
        { intros a b Ha Hb Nab Hinc. apply in_seq in Ha, Hb. rewrite <- Lab. fold (mass s).
          destruct (inter (clf cl a) (clf cl b)) as [|v vs] eqn:Ei2; [simpl; lia|].
          assert (Hv : In v (inter (clf cl a) (clf cl b))) by (rewrite Ei2; left; auto).
          apply inter_In in Hv as [Va Vb].
          destruct (all_sepsets_complete cl a b v) as (t & Ht & Hte); fold n; try lia; auto.
          { intros ->. apply Nab. constructor. }
          assert (Nt : ~ conn (map ends ins) (ssx t) (ssy t)).
          { destruct Hte as [[[= -> ->] _]|[[= -> ->] _]]; auto. intros C; apply Nab, conn_sym; auto. }
          assert (HtS : In t S) by (destruct (HS2 t Ht); [auto|contradiction]).
          pose proof (Max t HtS Nt) as M. rewrite <- Ei2.
          destruct Hte as [[_ El]|[_ El]]; unfold mass in M at 1; rewrite El in M; auto.
          rewrite inter_sym_length; auto; apply ND; lia. }
        assert (Pins : Permutation (map ends (ins ++ [s])) (ends s :: map ends ins)).
        { rewrite map_app. simpl. symmetry. apply Permutation_cons_append. }
        apply (IH _ _ _ R').
        * destruct I' as [P1 P2 P3]. constructor; auto. intros i j Li Lj. rewrite <- P3 by auto.
          split; apply conn_perm; [exact Pins|symmetry; exact Pins].
        * eapply JT_perm; [|exact J']. simpl. change (ssx s, ssy s) with (ends s).
          change (ends s :: map ends ins ++ R') with ((ends s :: map ends ins) ++ R').
          apply Permutation_app_tail. symmetry. exact Pins.
        * intros t Ht. apply filter_In in Ht as [Ht _]. auto.
        * intros t Ht. destruct (HS2 t Ht) as [HtS|C].
          -- destruct (sep_eqb s t) eqn:Es.
             ++ right. unfold sep_eqb in Es. apply andb_true_iff in Es as [E1 E2].
                apply Nat.eqb_eq in E1, E2. apply conn_adj. left. rewrite map_app, in_app_iff. right; left.
                unfold ends. congruence.
             ++ left. apply filter_In. rewrite Es. auto.
          -- right. eapply conn_incl; [|exact C]. rewrite map_app. apply incl_appl, incl_refl.
        * intros t Ht. apply in_app_iff in Ht as [Ht|[<-|[]]]; auto.
        * rewrite app_length. simpl. lia.
        * intros ->. simpl in Len'. lia.
        * rewrite app_length. simpl. lia.
      + apply Nat.ltb_ge in E. fold n in E.
        assert (L1 : List.length fr = 1) by (destruct fr; simpl in *; [congruence|lia]).
        destruct fr as [|t [|]]; try discriminate. exists t, ins. split; auto.
        pose proof (fi_perm _ _ _ I) as P. simpl in P. rewrite app_nil_r in P. split; auto. split; auto.
        assert (R = []).
        { eapply spanning_part; [exact J|]. intros i j Hi Hj. apply in_seq in Hi, Hj.
          apply (fi_conn _ _ _ I); try lia. exists t.
          split; [left; auto|split; apply (Permutation_in _ (Permutation_sym P)); apply in_seq; lia]. }
        subst R. rewrite app_nil_r in J. auto.
  Qed.
End Loop.

(** ** The join tree of a connected network *)

(** Variables are linked when they occur in one family. *)
Definition linked (ns : list bnode) (x y : var) : Prop :=
  exists n, In n ns /\ In x (family n) /\ In y (family n).

Definition connected (ns : list bnode) : Prop :=
  forall x y, In x (map nvar ns) -> In y (map nvar ns) -> clos_refl_trans_1n _ (linked ns) x y.

Record join_ok (ns : list bnode) (jt : jtree) : Prop := {
  jo_tree : JT (clf (jcliques jt)) (seq 0 (List.length (jcliques jt))) (map ends (jseps jt));
  jo_order : Permutation (jorder jt) (seq 0 (List.length (jcliques jt)));
  jo_ne : jcliques jt <> [];
  jo_seps : forall s, In s (jseps jt) -> In s (all_sepsets (jcliques jt));
  jo_cover : forall n, In n ns -> exists i, i < List.length (jcliques jt) /\ incl (family n) (clf (jcliques jt) i);
  jo_cliques : forall C, In C (jcliques jt) -> C <> [] /\ NoDup C /\ incl C (map nvar ns)
}.

Theorem build_join_tree_ok sc ns :
  good_sched sc -> topo ns -> ns <> [] -> connected ns ->
  exists jt, build_join_tree sc ns = Ok jt /\ join_ok ns jt.
Proof.
  intros GS T Ne HC.
  destruct (triangulate_ok (name_in ns) ns T Ne) as (cls & ord & E & Et & HJ & Cne & Hcov & Hcl).
  unfold build_join_tree. fold (moral ns). rewrite Et. cbn [bind fst].
  set (n := List.length cls).
  assert (Hclf : forall i, i < n -> In (clf cls i) cls) by (intros; apply nth_In; auto).
  assert (Share : forall i j v, i < n -> j < n -> In v (clf cls i) -> In v (clf cls j) ->
                    conn (map ends (all_sepsets cls)) i j).
  { intros i j v Li Lj Vi Vj. destruct (Nat.eq_dec i j) as [->|N]; [constructor|].
    destruct (all_sepsets_complete cls i j v) as (s & Hs & [[Es _]|[Es _]]); auto.
    - apply conn_adj. left. apply in_map_iff. exists s; auto.
    - apply conn_adj. right. apply in_map_iff. exists s; auto. }
  assert (AllC : forall i j, i < n -> j < n -> conn (map ends (all_sepsets cls)) i j).
  { intros i j Li Lj.
    destruct (Hcl _ (Hclf i Li)) as (Nei & _ & Ii). destruct (Hcl _ (Hclf j Lj)) as (Nej & _ & Ij).
    destruct (clf cls i) as [|x xs] eqn:Ex; [congruence|].
    destruct (clf cls j) as [|y ys] eqn:Ey; [congruence|].
    assert (Xi : In x (clf cls i)) by (rewrite Ex; left; auto).
    assert (Yj : In y (clf cls j)) by (rewrite Ey; left; auto).
    assert (C : clos_refl_trans_1n _ (linked ns) x y) by (apply HC; [apply Ii|apply Ij]; left; auto).
    clear Ex Ey xs ys Nei Nej Ii Ij. revert i Li Xi. induction C as [|x z y Hxz C IH]; intros i Li Xi.
    - eapply Share; eauto.
    - destruct Hxz as (m & Hm & Hx & Hz). destruct (Hcov m Hm) as (C' & HC' & Inc).
      destruct (In_nth _ _ [] HC') as (k & Lk & Ek). fold (clf cls k) in Ek. subst C'.
      eapply conn_trans; [eapply (Share i k x); auto|]. apply IH; auto. }
  destruct (kruskal_ok sc cls GS) with (fuel := n) (S := all_sepsets cls)
    (fr := map (fun i => [i]) (seq 0 n)) (ins := @nil sepset) (R := E)
    as (t & ins & Ek & Pt & JT' & Hins).
  - intros i Li. apply Hcl. apply Hclf; auto.
  - exact AllC.
  - constructor.
    + fold n. clear. induction (seq 0 n); simpl; auto.
    + intros u Hu. apply in_map_iff in Hu as (i & <- & _). discriminate.
    + intros i j Li Lj. simpl. rewrite conn_nil. split.
      * intros ->. exists [j]. split; [|split; left; auto]. apply in_map_iff. exists j. split; auto. apply in_seq; fold n in Lj; lia.
      * intros (u & Hu & Hi & Hj). apply in_map_iff in Hu as (k & <- & _). simpl in *. intuition congruence.
  - exact HJ.
  - auto.
  - auto.
  - intros s [].
  - rewrite map_length, seq_length. simpl. fold n. lia.
  - fold n. destruct cls; [congruence|]. discriminate.
  - simpl. fold n. lia.
  - rewrite Ek. cbn [bind fst snd]. exists (mkJt cls t ins). split; auto.
    constructor; simpl; auto.
    intros m Hm. destruct (Hcov m Hm) as (C' & HC' & Inc).
    destruct (In_nth _ _ [] HC') as (k & Lk & Ek'). exists k. split; auto. unfold clf. rewrite Ek'. auto.
Qed.
