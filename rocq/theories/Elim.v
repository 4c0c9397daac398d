(** * Elim: the clusters of an elimination order have a junction tree.

    Proof-side: [pe] describes the cluster list that node elimination produces; the cliques that
    [record_cliques] keeps are its maximal members and carry a junction tree. *)
From Coq Require Import List Bool Arith Lia String Permutation.
From Verif Require Import Base BbnModel Forest.
Import ListNotations.
Local Open Scope list_scope.

Lemma subset_of_incl a b : subset_of a b = true <-> incl a b.
Proof.
  unfold subset_of. rewrite forallb_forall. unfold incl.
  split; intros H x Hx; apply smem_In; auto.
Qed.

Lemma subset_of_false a b : subset_of a b = false <-> ~ incl a b.
Proof. rewrite <- subset_of_incl. destruct (subset_of a b); split; congruence. Qed.

(** Cluster lists of perfect elimination: the first variable of a cluster does not occur later, and
    the rest of the cluster lies inside some later cluster. *)
Inductive pe : list (list var) -> Prop :=
| pe_nil : pe []
| pe_cons v N CL :
    pe CL ->
    (forall C, In C CL -> ~ In v C) ->
    (CL <> [] -> exists D, In D CL /\ incl N D) ->
    pe ((v :: N) :: CL).

Fixpoint recf (CL : list (list var)) : list (list var) :=
  match CL with
  | [] => []
  | C :: CL' => C :: filter (fun D => negb (subset_of D C)) (recf CL')
  end.

Lemma filter_filter {A} (p q : A -> bool) l :
  filter p (filter q l) = filter (fun x => q x && p x) l.
Proof.
  induction l as [|x xs IH]; simpl; auto.
  destruct (q x); simpl; rewrite IH; auto.
Qed.

Lemma record_fold CL acc :
  fold_left record_cliques CL acc =
  acc ++ filter (fun D => negb (existsb (subset_of D) acc)) (recf CL).
Proof.
  revert acc. induction CL as [|C CL IH]; intros acc; simpl.
  - rewrite app_nil_r; auto.
  - rewrite IH. unfold record_cliques. destruct (existsb (subset_of C) acc) eqn:E; simpl.
    + f_equal. rewrite filter_filter. apply filter_ext. intros D.
      destruct (subset_of D C) eqn:S; simpl; auto.
      apply existsb_exists in E as (B & HB & HS). rewrite negb_false_iff. apply existsb_exists.
      exists B. split; auto. apply subset_of_incl. apply subset_of_incl in S, HS.
      eapply incl_tran; eauto.
    + rewrite <- app_assoc. simpl. f_equal. f_equal. rewrite filter_filter.
      apply filter_ext. intros D. rewrite existsb_app. simpl.
      destruct (existsb (subset_of D) acc), (subset_of D C); auto.
Qed.

Lemma record_all CL : fold_left record_cliques CL [] = recf CL.
Proof.
  rewrite record_fold. simpl. induction (recf CL); simpl; auto. congruence.
Qed.

Lemma recf_sub CL D : In D (recf CL) -> In D CL.
Proof.
  revert D. induction CL as [|C CL IH]; simpl; auto.
  intros D [H|H]; auto. apply filter_In in H as [H _]. auto.
Qed.

Lemma recf_cover CL C : In C CL -> exists D, In D (recf CL) /\ incl C D.
Proof.
  induction CL as [|B CL IH]; simpl; [tauto|].
  intros [<-|H].
  - exists B. split; auto. apply incl_refl.
  - destruct (IH H) as (D & HD & I). destruct (subset_of D B) eqn:S.
    + exists B. split; auto. apply subset_of_incl in S. eapply incl_tran; eauto.
    + exists D. split; auto. right. apply filter_In. rewrite S. auto.
Qed.

Definition anti (A B : list var) : Prop := ~ incl A B /\ ~ incl B A.

Lemma FOP_filter {A} (R : A -> A -> Prop) p l :
  ForallOrdPairs R l -> ForallOrdPairs R (filter p l).
Proof.
  induction 1 as [|x l F H IH]; simpl; [constructor|].
  destruct (p x); auto. constructor; auto.
  rewrite Forall_forall in *. intros y Hy. apply filter_In in Hy as [Hy _]. auto.
Qed.

Lemma recf_anti CL : pe CL -> ForallOrdPairs anti (recf CL).
Proof.
  induction 1 as [|v N CL H IH Hv HN]; simpl; constructor.
  - rewrite Forall_forall. intros D HD. apply filter_In in HD as [HD S].
    rewrite negb_true_iff in S. apply subset_of_false in S. split; auto.
    intros I. apply recf_sub in HD. apply (Hv D HD). apply I. left; auto.
  - apply FOP_filter; auto.
Qed.

Lemma FOP_split {A} (R : A -> A -> Prop) l1 x l2 y :
  ForallOrdPairs R (l1 ++ x :: l2) -> In y (l1 ++ l2) -> R x y \/ R y x.
Proof.
  induction l1 as [|z l1 IH]; simpl; intros H Hy.
  - inversion H; subst. rewrite Forall_forall in H2. auto.
  - inversion H; subst. destruct Hy as [->|Hy]; auto.
    rewrite Forall_forall in H2. right. apply H2. apply in_app_iff. simpl; auto.
Qed.

Lemma filter_id {A} (p : A -> bool) l : (forall x, In x l -> p x = true) -> filter p l = l.
Proof.
  induction l as [|x xs IH]; simpl; intros H; auto. rewrite H by auto. f_equal. auto.
Qed.

(** JT on the positions of a list of cliques. *)
Definition clf (L : list (list var)) (i : nat) : list var := nth i L [].
Definition JTL (L : list (list var)) (E : list edge) : Prop :=
  JT (clf L) (seq 0 (List.length L)) E.

Theorem pe_JT CL : pe CL -> CL <> [] -> exists E, JTL (recf CL) E.
Proof.
  induction 1 as [|v N CL H IH Hv HN]; intros Hne; [congruence|].
  destruct CL as [|C0 CL0].
  { exists []. simpl. apply JT_single. }
  set (CL := C0 :: CL0) in *.
  assert (CLne : CL <> []) by discriminate.
  destruct (IH CLne) as (E & HE). destruct (HN CLne) as (D0 & HD0 & IN0).
  destruct (recf_cover CL D0 HD0) as (D & HD & ID0).
  assert (IN : incl N D) by (eapply incl_tran; eauto).
  pose proof (recf_anti CL H) as Anti.
  change (recf ((v :: N) :: CL)) with ((v :: N) :: filter (fun D => negb (subset_of D (v :: N))) (recf CL)).
  remember (recf CL) as L eqn:DL.
  destruct (in_split D L HD) as (L1 & L2 & EL).
  assert (HvL : forall B, In B L -> ~ In v B) by (intros B HB; apply Hv, recf_sub; rewrite <- DL; auto).
  assert (Sub : forall B, incl B (v :: N) -> In B L -> incl B N).
  { intros B IB HB x Hx. destruct (IB x Hx) as [<-|?]; auto. exfalso. eapply HvL; eauto. }
  assert (Keep : forall B, In B (L1 ++ L2) -> negb (subset_of B (v :: N)) = true).
  { intros B HB. rewrite negb_true_iff. apply subset_of_false. intros IB.
    assert (HBL : In B L). { rewrite EL. rewrite in_app_iff in *. simpl. tauto. }
    rewrite EL in Anti. apply (FOP_split _ _ _ _ B) in Anti; auto.
    assert (incl B D) by (eapply incl_tran; [apply Sub; auto | exact IN]).
    unfold anti in Anti. tauto. }
  destruct (subset_of D (v :: N)) eqn:SD.
  - (* D is absorbed by the new cluster *)
    assert (EF : filter (fun D => negb (subset_of D (v :: N))) L = L1 ++ L2).
    { rewrite EL, filter_app. simpl. rewrite SD. simpl.
      rewrite !filter_id; auto; intros; apply Keep; apply in_app_iff; auto. }
    rewrite EF. clear EF. apply subset_of_incl in SD.
    set (k := List.length L1).
    set (g := fun i => if i <? k then S i else if i =? k then O else i).
    exists (emap g E). unfold JTL.
    assert (Lk : List.length L = S (k + List.length L2)).
    { rewrite EL, app_length. simpl. unfold k. lia. }
    (* enlarge D first, then rename *)
    set (cl' := fun i => if i =? k then v :: N else clf L i).
    assert (HD' : clf L k = D).
    { unfold clf. rewrite EL. unfold k. rewrite app_nth2, Nat.sub_diag; auto. }
    assert (J1 : JT cl' (seq 0 (List.length L)) E).
    { apply (JT_enlarge (clf L) cl' _ _ k).
      - exact HE.
      - intros i w Hi Ni. unfold cl'. apply Nat.eqb_neq in Ni. rewrite Ni. tauto.
      - unfold cl'. rewrite Nat.eqb_refl, HD'. auto.
      - unfold cl'. rewrite Nat.eqb_refl, HD'. intros w i Hw NwD Hi Ni Hwi.
        apply in_seq in Hi. destruct Hw as [<-|Hw].
        + apply (HvL (clf L i)); auto. apply nth_In. lia.
        + apply NwD. auto. }
    assert (SetEq : forall i, In i (seq 0 (List.length L)) ->
                     In (g i) (seq 0 (S (List.length (L1 ++ L2))))).
    { intros i Hi. apply in_seq in Hi. apply in_seq. rewrite app_length. unfold g.
      destruct (i <? k) eqn:E1; [apply Nat.ltb_lt in E1; lia|].
      destruct (i =? k); lia. }
    pose proof (JT_rename cl' (clf ((v :: N) :: L1 ++ L2)) g _ _ J1) as J2.
    assert (J3 : JT (clf ((v :: N) :: L1 ++ L2)) (map g (seq 0 (List.length L))) (emap g E)).
    { apply J2.
      - intros a b Ha Hb. apply in_seq in Ha. apply in_seq in Hb. unfold g.
        destruct (Nat.ltb_spec a k), (Nat.ltb_spec b k), (Nat.eqb_spec a k), (Nat.eqb_spec b k); intros; lia.
      - intros i w Hi. apply in_seq in Hi. unfold g, cl', clf.
        destruct (i <? k) eqn:A1.
        + apply Nat.ltb_lt in A1. assert (i =? k = false) as -> by (apply Nat.eqb_neq; lia).
          simpl. rewrite EL. rewrite !app_nth1 by (fold k; lia). tauto.
        + apply Nat.ltb_ge in A1. destruct (i =? k) eqn:A2.
          * simpl. tauto.
          * apply Nat.eqb_neq in A2. destruct i as [|i]; [lia|]. simpl. rewrite EL.
            rewrite !app_nth2 by (fold k; lia). fold k.
            replace (S i - k) with (S (i - k)) by lia. simpl. tauto. }
    destruct J3 as [F1 F2 F3 F4].
    assert (Surj : forall j, In j (seq 0 (S (List.length (L1 ++ L2)))) ->
                    In j (map g (seq 0 (List.length L)))).
    { intros j Hj. apply in_seq in Hj. rewrite app_length in Hj. fold k in Hj. apply in_map_iff.
      destruct j as [|j].
      - exists k. split; [|apply in_seq; lia]. unfold g.
        assert (k <? k = false) as -> by (apply Nat.ltb_ge; lia). rewrite Nat.eqb_refl. auto.
      - destruct (j <? k) eqn:A1.
        + exists j. split; [unfold g; rewrite A1; auto|]. apply Nat.ltb_lt in A1. apply in_seq. lia.
        + apply Nat.ltb_ge in A1. exists (S j). split; [|apply in_seq; lia]. unfold g.
          assert (S j <? k = false) as -> by (apply Nat.ltb_ge; lia).
          assert (S j =? k = false) as -> by (apply Nat.eqb_neq; lia). auto. }
    simpl List.length. constructor; auto.
    + intros a b Hab. apply F2 in Hab as [Ha Hb].
      apply in_map_iff in Ha as (a' & <- & Ha). apply in_map_iff in Hb as (b' & <- & Hb).
      split; apply SetEq; auto.
    + intros w i j Hi Hj. apply F4; auto.
  - (* the new cluster becomes a leaf below D *)
    assert (EF : filter (fun D => negb (subset_of D (v :: N))) L = L).
    { apply filter_id. intros B HB. destruct (in_dec (list_eq_dec String.string_dec) B (L1 ++ L2)) as [I|I].
      - apply Keep; auto.
      - rewrite EL, in_app_iff in HB. simpl in HB. rewrite in_app_iff in I.
        assert (D = B) as <- by tauto. rewrite SD. auto. }
    rewrite EF. clear EF.
    destruct (In_nth L D [] HD) as (d & Ld & Ed).
    exists ((O, S d) :: emap S E). unfold JTL. simpl List.length.
    assert (J1 : JT (clf ((v :: N) :: L)) (map S (seq 0 (List.length L))) (emap S E)).
    { apply (JT_rename (clf L)); auto. intros i w Hi. simpl. tauto. }
    rewrite seq_shift in J1.
    change (seq 0 (S (List.length L))) with (O :: seq 1 (List.length L)).
    apply JT_leaf; auto.
    + intros I. apply in_seq in I. lia.
    + apply in_seq. lia.
    + intros w i Hw Hi Hwi. unfold clf in *. simpl in *. rewrite Ed.
      apply in_seq in Hi. destruct i as [|i]; [lia|]. simpl in Hwi.
      destruct Hw as [<-|Hw]; auto.
      exfalso. eapply (HvL (nth i L [])); eauto. apply nth_In. lia.
Qed.
