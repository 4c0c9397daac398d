(** * MetricsRoc: the area under the ROC curve counts the pairs that are ranked correctly. *)
From Coq Require Import List Bool Arith ZArith Lia String QArith Qcanon Permutation Sorted.
From Verif Require Import Base QcX NetModel NetFit DiscModel DiscProofs MetricsModel.
Import ListNotations.
Local Open Scope string_scope.
Local Open Scope list_scope.

(** ** Counts *)

(** How many observations are false (resp. true). *)
Definition negs (l : list observation) : nat := List.length (filter (fun o => negb (fst o)) l).
Definition poss (l : list observation) : nat := List.length (filter fst l).

(** How many false (resp. true) observations have a score of at least [t]. *)
Definition negs_from (t : Qc) (l : list observation) : nat := negs (filter (fun o => Qcleb t (snd o)) l).
Definition poss_from (t : Qc) (l : list observation) : nat := poss (filter (fun o => Qcleb t (snd o)) l).

Local Open Scope Qc_scope.

(** A true observation against a false one: 1 when it scores higher, 1/2 for a tie. *)
Definition win (x y : observation) : Qc :=
  if fst x && negb (fst y)
  then (if Qc_eq_bool (snd x) (snd y) then / (1 + 1) else if Qcleb (snd y) (snd x) then 1 else 0)
  else 0.
Definition wins (l m : list observation) : Qc := Qsum (fun x => Qsum (win x) m) l.

Lemma negs_app l m : negs (l ++ m) = (negs l + negs m)%nat.
Proof. unfold negs. rewrite filter_app, app_length. auto. Qed.
Lemma poss_app l m : poss (l ++ m) = (poss l + poss m)%nat.
Proof. unfold poss. rewrite filter_app, app_length. auto. Qed.

Lemma wins_app_l l l' m : wins (l ++ l') m = wins l m + wins l' m.
Proof. apply Qsum_app. Qed.
Lemma wins_app_r l m m' : wins l (m ++ m') = wins l m + wins l m'.
Proof. unfold wins. rewrite <- Qsum_add. apply Qsum_ext. intros x _. apply Qsum_app. Qed.

Lemma sum_negs c m : Qsum (fun y : observation => if negb (fst y) then c else 0) m = Qc_of_nat (negs m) * c.
Proof.
  unfold negs. induction m as [|[[] s] m IH]; [cbn [filter List.length]; rewrite Qsum_nil, Qc_of_nat_0; ring| |]; rewrite Qsum_cons, IH; cbn [filter fst negb]; [ring|].
  cbn [List.length]. change (Datatypes.S ?n) with (1 + n)%nat. rewrite (Qc_of_nat_add 1), Qc_of_nat_1. ring.
Qed.
Lemma sum_poss c m : Qsum (fun y : observation => if fst y then c else 0) m = Qc_of_nat (poss m) * c.
Proof.
  unfold poss. induction m as [|[[] s] m IH]; [cbn [filter List.length]; rewrite Qsum_nil, Qc_of_nat_0; ring| |]; rewrite Qsum_cons, IH; cbn [filter fst negb]; [|ring].
  cbn [List.length]. change (Datatypes.S ?n) with (1 + n)%nat. rewrite (Qc_of_nat_add 1), Qc_of_nat_1. ring.
Qed.

Lemma wins_const c l m : (forall x y, In x l -> In y m -> fst x = true -> fst y = false -> win x y = c) ->
  wins l m = Qc_of_nat (poss l) * Qc_of_nat (negs m) * c.
Proof.
  intros H. unfold wins. transitivity (Qsum (fun x : observation => if fst x then Qc_of_nat (negs m) * c else 0) l).
  2:{ rewrite sum_poss. ring. }
  apply Qsum_ext. intros x Hx. destruct (fst x) eqn:Ex.
  - rewrite <- sum_negs. apply Qsum_ext. intros y Hy. destruct (fst y) eqn:Ey; cbn.
    + unfold win. rewrite Ey. rewrite andb_false_r. auto.
    + auto.
  - apply Qsum_all_zero. intros y _. unfold win. rewrite Ex. auto.
Qed.

Lemma Qcleb_refl a : Qcleb a a = true.
Proof. apply Qcleb_iff. apply Qcle_refl. Qed.

Lemma wins_above l m : (forall x y, In x l -> In y m -> snd y < snd x) -> wins l m = Qc_of_nat (poss l) * Qc_of_nat (negs m).
Proof.
  intros H. rewrite (wins_const 1); [ring|]. intros x y Hx Hy Ex Ey. specialize (H x y Hx Hy). unfold win. rewrite Ex, Ey. cbn.
  destruct (Qc_eq_bool_spec (snd x) (snd y)) as [E|_].
  - rewrite E in H. apply Qclt_not_eq in H. congruence.
  - replace (Qcleb (snd y) (snd x)) with true; auto. symmetry. apply Qcleb_iff. apply Qclt_le_weak; auto.
Qed.

Lemma wins_below l m : (forall x y, In x l -> In y m -> snd x < snd y) -> wins l m = 0.
Proof.
  intros H. rewrite (wins_const 0); [ring|]. intros x y Hx Hy Ex Ey. specialize (H x y Hx Hy). unfold win. rewrite Ex, Ey. cbn.
  destruct (Qc_eq_bool_spec (snd x) (snd y)) as [E|_].
  - rewrite E in H. apply Qclt_not_eq in H. congruence.
  - destruct (Qcleb (snd y) (snd x)) eqn:L; auto. apply Qcleb_iff in L. apply Qclt_not_le in H. contradiction.
Qed.

Lemma wins_tied s l m : (forall x, In x l -> snd x = s) -> (forall y, In y m -> snd y = s) ->
  wins l m = Qc_of_nat (poss l) * Qc_of_nat (negs m) / (1 + 1).
Proof.
  intros Hl Hm. rewrite (wins_const (/ (1 + 1))); [unfold Qcdiv; ring|]. intros x y Hx Hy Ex Ey. unfold win. rewrite Ex, Ey. cbn.
  rewrite (Hl x Hx), (Hm y Hy). destruct (Qc_eq_bool_spec s s); congruence.
Qed.

(** ** The area before points are dropped *)

Definition pt (p : nat * nat) : Qc * Qc := (Qc_of_nat (fst p), Qc_of_nat (snd p)).
Definition down (a b : observation) : Prop := Qcleb (snd b) (snd a) = true.

Lemma trapz_cons2 a b l : trapz (a :: b :: l) = (fst b - fst a) * (snd a + snd b) / (1 + 1) + trapz (b :: l).
Proof. destruct a, b. reflexivity. Qed.

Lemma two_neq : (1 + 1 : Qc) <> 0.
Proof. intros H. discriminate H. Qed.

Lemma area_blocks l : forall pre F T s, StronglySorted down l -> (forall x, In x pre -> snd x = s) ->
  match l with [] => pre = [] | h :: _ => pre <> [] -> snd h = s end ->
  trapz (map pt ((F, T) :: block_ends (F + negs pre) (T + poss pre) l)) =
  Qc_of_nat T * Qc_of_nat (negs (pre ++ l)) + wins (pre ++ l) (pre ++ l).
Proof.
  induction l as [|[t s0] r IH]; intros pre F T s SS Hp Hh.
  - subst pre. cbn. rewrite Qc_of_nat_0. unfold wins. cbn. ring.
  - inversion SS as [|? ? SS' FA]; subst.
    set (pre' := pre ++ @cons observation (t, s0) []).
    assert (Ef : (if t then F + negs pre else Datatypes.S (F + negs pre))%nat = (F + negs pre')%nat).
    { unfold pre'. rewrite negs_app. unfold negs at 4. destruct t; cbn; lia. }
    assert (Et : (if t then Datatypes.S (T + poss pre) else T + poss pre)%nat = (T + poss pre')%nat).
    { unfold pre'. rewrite poss_app. unfold poss at 4. destruct t; cbn; lia. }
    assert (Hp' : forall x, In x pre' -> snd x = s0).
    { intros x Hx. apply in_app_or in Hx as [Hx|[<-|[]]]; auto. rewrite (Hp x Hx). symmetry. apply Hh. intros ->. destruct Hx. }
    assert (Eapp : pre ++ @cons observation (t, s0) r = pre' ++ r) by (unfold pre'; rewrite <- app_assoc; auto).
    rewrite Eapp. cbn [block_ends]. rewrite Ef, Et.
    assert (Cut : forall rest, StronglySorted down rest -> (forall x y, In x pre' -> In y rest -> snd y < snd x) ->
      trapz (map pt ((F + negs pre', T + poss pre')%nat :: block_ends (F + negs pre') (T + poss pre') rest)) =
        Qc_of_nat (T + poss pre') * Qc_of_nat (negs rest) + wins rest rest ->
      trapz (map pt ((F, T) :: (F + negs pre', T + poss pre')%nat :: block_ends (F + negs pre') (T + poss pre') rest)) =
        Qc_of_nat T * Qc_of_nat (negs (pre' ++ rest)) + wins (pre' ++ rest) (pre' ++ rest)).
    { intros rest _ Ab E. cbn [map] in *. rewrite trapz_cons2, E. cbn [pt fst snd].
      rewrite wins_app_l, !wins_app_r, (wins_tied s0 pre' pre' Hp' Hp'), (wins_above pre' rest Ab),
        (wins_below rest pre') by (intros; apply Ab; auto).
      rewrite negs_app, !Qc_of_nat_add. field. apply two_neq. }
    destruct r as [|[t' s'] r'].
    + specialize (Cut [] (SSorted_nil _)). cbn [block_ends] in Cut. apply Cut.
      * intros x y _ [].
      * cbn. rewrite Qc_of_nat_0. unfold wins. cbn. ring.
    + destruct (Qc_eq_bool_spec s0 s') as [E|N].
      * subst s'. apply (IH pre' F T s0); auto.
      * apply Cut; auto.
        -- intros x y Hx Hy. rewrite (Hp' x Hx). destruct (Qclt_le_dec (snd y) s0) as [L|L]; auto. exfalso.
           inversion SS' as [|? ? _ FA']; subst.
           assert (L1 : snd y <= s') by (destruct Hy as [<-|Hy]; [apply Qcle_refl|rewrite Forall_forall in FA'; apply FA' in Hy; apply Qcleb_iff in Hy; auto]).
           assert (L2 : s' <= s0) by (inversion FA; subst; apply Qcleb_iff; auto).
           apply N. apply Qcle_antisym; auto. eapply Qcle_trans; eauto.
        -- specialize (IH [] (F + negs pre')%nat (T + poss pre')%nat s' SS'). change (negs []) with 0%nat in IH. change (poss []) with 0%nat in IH.
           rewrite !Nat.add_0_r in IH. apply IH; auto. intros x [].
Qed.

Lemma by_score_sorted l : StronglySorted down (by_score l).
Proof.
  apply isort_sorted.
  - intros x y. destruct (Qclt_le_dec (snd x) (snd y)) as [L|L]; [right|left]; apply Qcleb_iff; auto. apply Qclt_le_weak; auto.
  - intros x y z H1 H2. apply Qcleb_iff in H1, H2. apply Qcleb_iff. eapply Qcle_trans; eauto.
Qed.

Lemma filter_perm {A} (f : A -> bool) l m : Permutation l m -> Permutation (filter f l) (filter f m).
Proof.
  induction 1; cbn; auto; repeat match goal with |- context [if ?c then _ else _] => destruct c end; auto; try (constructor; auto; fail).
  etransitivity; eauto.
Qed.
Lemma negs_perm l m : Permutation l m -> negs l = negs m.
Proof. intros P. apply Permutation_length, filter_perm; auto. Qed.
Lemma poss_perm l m : Permutation l m -> poss l = poss m.
Proof. intros P. apply Permutation_length, filter_perm; auto. Qed.

Lemma wins_perm l m : Permutation l m -> wins l l = wins m m.
Proof.
  intros P. unfold wins. rewrite (Qsum_perm _ l m P). apply Qsum_ext. intros x _. apply Qsum_perm; auto.
Qed.

Lemma area_full l : trapz (map pt ((0, 0)%nat :: block_ends 0 0 (by_score l))) = wins l l.
Proof.
  pose proof (area_blocks (by_score l) [] 0 0 0 (by_score_sorted l)) as H. change (negs []) with 0%nat in H. change (poss []) with 0%nat in H.
  cbn [Nat.add app] in H. rewrite H.
  - rewrite Qc_of_nat_0. rewrite (wins_perm (by_score l) l); [ring|]. symmetry. apply isort_perm.
  - intros x [].
  - destruct (by_score l); auto. congruence.
Qed.

(** ** Dropping intermediate points *)

(** Twice the signed area of the triangle. *)
Definition cross (K p c : nat * nat) : Qc :=
  (fst (pt p) - fst (pt K)) * (snd (pt c) - snd (pt p)) - (snd (pt p) - snd (pt K)) * (fst (pt c) - fst (pt p)).

Lemma midpoint_iff p c n : midpoint p c n = true ->
  fst (pt n) - fst (pt c) = fst (pt c) - fst (pt p) /\ snd (pt n) - snd (pt c) = snd (pt c) - snd (pt p).
Proof.
  unfold midpoint. intros H. apply andb_true_iff in H as [A B]. apply Nat.eqb_eq in A, B. cbn [pt fst snd].
  apply (f_equal Qc_of_nat) in A, B. rewrite !Qc_of_nat_add in A, B. split; unfold Qcminus in *; qlra.
Qed.

Lemma trapz_three K p c : cross K p c = 0 ->
  (fst (pt p) - fst (pt K)) * (snd (pt K) + snd (pt p)) / (1 + 1) + (fst (pt c) - fst (pt p)) * (snd (pt p) + snd (pt c)) / (1 + 1) =
  (fst (pt c) - fst (pt K)) * (snd (pt K) + snd (pt c)) / (1 + 1).
Proof.
  intros H. unfold cross in H.
  assert (E : forall xa xb xc ya yb yc : Qc, (xb - xa) * (yc - yb) - (yb - ya) * (xc - xb) = 0 ->
    (xb - xa) * (ya + yb) / (1 + 1) + (xc - xb) * (yb + yc) / (1 + 1) = (xc - xa) * (ya + yc) / (1 + 1)).
  { intros xa xb xc ya yb yc E.
    replace ((xb - xa) * (ya + yb) / (1 + 1) + (xc - xb) * (yb + yc) / (1 + 1)) with
      ((xc - xa) * (ya + yc) / (1 + 1) - ((xb - xa) * (yc - yb) - (yb - ya) * (xc - xb)) / (1 + 1)) by (field; apply two_neq).
    rewrite E. field. apply two_neq. }
  apply E. exact H.
Qed.

Lemma cross_same K c : cross K K c = 0.
Proof. unfold cross. ring. Qed.

Lemma area_thin l : forall K p, match l with [] => K = p | c :: _ => cross K p c = 0 end ->
  trapz (map pt (K :: thin p l)) = trapz (map pt (K :: match l with [] => [] | _ => p :: l end)).
Proof.
  induction l as [|c r IH]; intros K p H; [reflexivity|].
  destruct r as [|n r'].
  - cbn [thin map]. rewrite !trapz_cons2. cbn [trapz]. rewrite <- (trapz_three K p c H). destruct (pt c). ring.
  - change (thin p (c :: n :: r')) with (if midpoint p c n then thin c (n :: r') else c :: thin c (n :: r')).
    destruct (midpoint p c n) eqn:M.
    + rewrite IH.
      * cbn [map]. rewrite !trapz_cons2. rewrite <- (trapz_three K p c H). ring.
      * apply midpoint_iff in M as [A B]. unfold cross in *.
        rewrite A, B.
        replace ((fst (pt c) - fst (pt K)) * (snd (pt c) - snd (pt p)) - (snd (pt c) - snd (pt K)) * (fst (pt c) - fst (pt p)))
          with ((fst (pt p) - fst (pt K)) * (snd (pt c) - snd (pt p)) - (snd (pt p) - snd (pt K)) * (fst (pt c) - fst (pt p))) by ring.
        exact H.
    + change (map pt (K :: c :: thin c (n :: r'))) with (pt K :: pt c :: map pt (thin c (n :: r'))).
      rewrite trapz_cons2. change (pt c :: map pt (thin c (n :: r'))) with (map pt (c :: thin c (n :: r'))).
      rewrite IH by apply cross_same.
      cbn [map]. rewrite !trapz_cons2. rewrite <- (trapz_three K p c H).
      replace (fst (pt c) - fst (pt c)) with (0 : Qc) by ring. unfold Qcdiv. ring.
Qed.

Lemma area_drop o l : trapz (map pt (o :: drop_intermediate l)) = trapz (map pt (o :: l)).
Proof.
  destruct l as [|p r]; [reflexivity|]. unfold drop_intermediate.
  change (map pt (o :: p :: thin p r)) with (pt o :: pt p :: map pt (thin p r)). rewrite trapz_cons2.
  change (pt p :: map pt (thin p r)) with (map pt (p :: thin p r)). rewrite area_thin.
  - destruct r as [|c r]; [reflexivity|]. cbn [map]. rewrite !trapz_cons2.
    replace (fst (pt p) - fst (pt p)) with (0 : Qc) by ring. unfold Qcdiv. ring.
  - destruct r; auto. apply cross_same.
Qed.

(** ** The points are the rates at the thresholds *)

Lemma negs_filter_all t l : (forall x, In x l -> t <= snd x) -> filter (fun o : observation => Qcleb t (snd o)) l = l.
Proof.
  induction l as [|x l IH]; intros H; cbn; auto. replace (Qcleb t (snd x)) with true by (symmetry; apply Qcleb_iff, H; left; auto).
  rewrite IH; auto. intros; apply H; right; auto.
Qed.
Lemma negs_filter_none t l : (forall x, In x l -> snd x < t) -> filter (fun o : observation => Qcleb t (snd o)) l = [].
Proof.
  induction l as [|x l IH]; intros H; cbn; auto. destruct (Qcleb t (snd x)) eqn:E.
  - apply Qcleb_iff in E. pose proof (H x (or_introl eq_refl)) as L. apply Qclt_not_le in L. contradiction.
  - apply IH. intros; apply H; right; auto.
Qed.

Definition at_threshold (t : Qc) (l : list observation) : nat * nat := (negs_from t l, poss_from t l).

Lemma block_ends_step fp tp t s r :
  block_ends fp tp ((t, s) :: r) =
  let p := ((if t then fp else Datatypes.S fp), (if t then Datatypes.S tp else tp)) in
  match r with
  | [] => [p]
  | (_, s') :: _ => if Qc_eq_bool s s' then block_ends (fst p) (snd p) r else p :: block_ends (fst p) (snd p) r
  end.
Proof. destruct r as [|[] r]; reflexivity. Qed.

Lemma block_points l : forall pre, StronglySorted down l -> (forall x y, In x pre -> In y l -> snd y <= snd x) ->
  forall p, In p (block_ends (negs pre) (poss pre) l) <-> exists o, In o l /\ p = at_threshold (snd o) (pre ++ l).
Proof.
  induction l as [|[t s] r IH]; intros pre SS Ab p; [split; [intros []|intros (o & [] & _)]|].
  inversion SS as [|? ? SS' FA]; subst. rewrite Forall_forall in FA.
  set (pre' := pre ++ @cons observation (t, s) []).
  assert (Ef : (if t then negs pre else Datatypes.S (negs pre))%nat = negs pre').
  { unfold pre'. rewrite negs_app. unfold negs at 4. destruct t; cbn; lia. }
  assert (Et : (if t then Datatypes.S (poss pre) else poss pre)%nat = poss pre').
  { unfold pre'. rewrite poss_app. unfold poss at 4. destruct t; cbn; lia. }
  assert (Eapp : pre ++ @cons observation (t, s) r = pre' ++ r) by (unfold pre'; rewrite <- app_assoc; auto).
  assert (Ab' : forall x y, In x pre' -> In y r -> snd y <= snd x).
  { intros x y Hx Hy. apply in_app_or in Hx as [Hx|[<-|[]]]; [apply Ab; auto; right; auto|]. apply Qcleb_iff. exact (FA y Hy). }
  assert (Ge : forall x, In x pre' -> s <= snd x).
  { intros x Hx. apply in_app_or in Hx as [Hx|[<-|[]]]; [exact (Ab x (t, s) Hx (or_introl eq_refl))|apply Qcle_refl]. }
  assert (Cut : (forall y, In y r -> snd y < s) -> at_threshold s (pre' ++ r) = (negs pre', poss pre')).
  { intros Lt.
    assert (Flt : filter (fun o : observation => Qcleb s (snd o)) (pre' ++ r) = pre').
    { rewrite filter_app. etransitivity; [apply f_equal2; [apply negs_filter_all; auto|apply negs_filter_none; auto]|]. apply app_nil_r. }
    unfold at_threshold, negs_from, poss_from. f_equal; [exact (f_equal negs Flt)|exact (f_equal poss Flt)]. }
  rewrite block_ends_step, Ef, Et, Eapp. cbn zeta. cbn [fst snd].
  specialize (IH pre' SS' Ab' p).
  destruct r as [|[t' s'] r'].
  - split.
    + intros [<-|[]]. exists (t, s). split; [left; auto|]. symmetry. apply Cut. intros y [].
    + intros (o & [<-|[]] & ->). left. symmetry. apply Cut. intros y [].
  - destruct (Qc_eq_bool_spec s s') as [E|N].
    + rewrite IH. split; intros (o & Ho & ->).
      * exists o. split; auto. right; auto.
      * destruct Ho as [<-|Ho]; [|exists o; auto]. exists (t', s'). split; [left; auto|]. cbn [snd]. rewrite E. auto.
    + assert (Lt : forall y, In y ((t', s') :: r') -> snd y < s).
      { intros y Hy. destruct (Qclt_le_dec (snd y) s) as [L|L]; auto. exfalso.
        inversion SS' as [|? ? _ FA']; subst. rewrite Forall_forall in FA'.
        assert (L1 : snd y <= s') by (destruct Hy as [<-|Hy]; [apply Qcle_refl|apply FA' in Hy; apply Qcleb_iff in Hy; auto]).
        assert (L2 : s' <= s) by (apply Qcleb_iff; exact (FA (t', s') (or_introl eq_refl))).
        apply N. apply Qcle_antisym; auto. eapply Qcle_trans; eauto. }
      cbn [In]. rewrite IH. split.
      * intros [<-|(o & Ho & ->)]; [|exists o; split; auto; right; auto]. exists (t, s). split; [left; auto|]. symmetry. apply Cut; auto.
      * intros (o & [<-|Ho] & ->); [left; symmetry; apply Cut; auto|right; exists o; auto].
Qed.

Lemma last_cons {A} (x : A) l d0 : l <> [] -> last (x :: l) d0 = last l d0.
Proof. destruct l; [congruence|auto]. Qed.

Lemma block_ends_nonempty l : forall fp tp, l <> [] -> block_ends fp tp l <> [].
Proof.
  induction l as [|[t s] r IH]; intros fp tp N; [congruence|]. rewrite block_ends_step. cbn zeta.
  destruct r as [|[a c] r]; [discriminate|]. destruct (Qc_eq_bool s c); [|discriminate]. apply IH. discriminate.
Qed.

Lemma block_last l : forall fp tp d0, l <> [] -> last (block_ends fp tp l) d0 = ((fp + negs l)%nat, (tp + poss l)%nat).
Proof.
  induction l as [|[t s] r IH]; intros fp tp d0 N; [congruence|]. rewrite block_ends_step. cbn zeta. cbn [fst snd].
  destruct r as [|[t' s'] r'].
  - unfold negs, poss. destruct t; cbn; f_equal; lia.
  - assert (E : last (block_ends (if t then fp else Datatypes.S fp) (if t then Datatypes.S tp else tp) ((t', s') :: r')) d0 =
      ((fp + negs ((t, s) :: (t', s') :: r'))%nat, (tp + poss ((t, s) :: (t', s') :: r'))%nat)).
    { rewrite IH by discriminate. change ((t, s) :: (t', s') :: r') with ([(t, s)] ++ (t', s') :: r'). rewrite negs_app, poss_app.
      unfold negs at 2, poss at 2. destruct t; cbn; f_equal; lia. }
    destruct (Qc_eq_bool s s'); [exact E|].
    rewrite last_cons by (apply block_ends_nonempty; discriminate). exact E.
Qed.

Lemma thin_incl l : forall p q, In q (thin p l) -> In q l.
Proof.
  induction l as [|c r IH]; intros p q H; auto. destruct r as [|n r]; auto.
  change (thin p (c :: n :: r)) with (if midpoint p c n then thin c (n :: r) else c :: thin c (n :: r)) in H.
  destruct (midpoint p c n); [right; eapply IH; eauto|]. destruct H as [<-|H]; [left; auto|right; eapply IH; eauto].
Qed.

Lemma thin_last l : forall p d0, l <> [] -> thin p l <> [] /\ last (thin p l) d0 = last l d0.
Proof.
  induction l as [|c r IH]; intros p d0 N; [congruence|]. destruct r as [|n r]; [split; [discriminate|auto]|].
  change (thin p (c :: n :: r)) with (if midpoint p c n then thin c (n :: r) else c :: thin c (n :: r)).
  destruct (IH c d0) as [A B]; [discriminate|].
  destruct (midpoint p c n); [split; auto|]. split; [discriminate|].
  change (last (c :: n :: r) d0) with (last (n :: r) d0). rewrite <- B. destruct (thin c (n :: r)); [congruence|auto].
Qed.

Lemma drop_last o l d0 : l <> [] -> last (o :: drop_intermediate l) d0 = last l d0.
Proof.
  intros N. destruct l as [|p r]; [congruence|]. cbn [drop_intermediate].
  change (last (o :: p :: thin p r) d0) with (last (p :: thin p r) d0).
  destruct r as [|c r]; auto. destruct (thin_last (c :: r) p d0) as [A B]; [discriminate|].
  change (last (p :: c :: r) d0) with (last (c :: r) d0). rewrite <- B. destruct (thin p (c :: r)); [congruence|auto].
Qed.

(** ** Every point lies on the curve through the points that are kept *)

Definition consecutive {A} (x y : A) (l : list A) : Prop := exists l1 l2, l = l1 ++ x :: y :: l2.
Definition on_segment (a b q : Qc * Qc) : Prop :=
  exists u, 0 <= u /\ u <= 1 /\ fst q = fst a + u * (fst b - fst a) /\ snd q = snd a + u * (snd b - snd a).
Definition on_curve (l : list (Qc * Qc)) (q : Qc * Qc) : Prop := exists a b, consecutive a b l /\ on_segment a b q.

Lemma consecutive_cons {A} (x y z : A) l : consecutive x y l -> consecutive x y (z :: l).
Proof. intros (l1 & l2 & ->). exists (z :: l1), l2. auto. Qed.
Lemma on_curve_cons z l q : on_curve l q -> on_curve (z :: l) q.
Proof. intros (a & b & C & S). exists a, b. split; auto. apply consecutive_cons; auto. Qed.

(** [q] is [a] steps from [K] and [p] is [m] steps. *)
Definition steps (K p c q : nat * nat) (a : Qc) : Prop :=
  fst (pt q) = fst (pt K) + a * (fst (pt c) - fst (pt p)) /\ snd (pt q) = snd (pt K) + a * (snd (pt c) - snd (pt p)).

Lemma Qc_div_le_1 a b : 0 <= a -> a <= b -> 0 < b -> 0 <= a / b /\ a / b <= 1.
Proof.
  intros A L P. assert (I : 0 <= / b) by (apply Qc_inv_nonneg; apply Qclt_le_weak; auto).
  split; [unfold Qcdiv; apply Qc_mul_nonneg; auto|].
  replace 1 with (b * / b) by (field; intros ->; exact (Qclt_not_eq _ _ P eq_refl)).
  unfold Qcdiv. apply Qcmult_le_compat_r; auto.
Qed.

Lemma steps_end (x k p m : Qc) : p = k + m * (x - p) -> x - k = (m + 1) * (x - p).
Proof. intros H. assert (E : k = p - m * (x - p)) by (rewrite H at 1; ring). rewrite E. ring. Qed.

Lemma segment_end K p c q m a : steps K p c p m -> steps K p c q a -> 0 <= a -> a <= m -> on_segment (pt K) (pt c) (pt q).
Proof.
  intros [P1 P2] [Q1 Q2] A L.
  assert (Pm : 0 < m + 1).
  { assert (0 <= m) by (eapply Qcle_trans; eauto). unfold Qcminus in *. qlra. }
  assert (Nm : m + 1 <> 0) by (intros E; rewrite E in Pm; exact (Qclt_not_eq _ _ Pm eq_refl)).
  exists (a / (m + 1)). destruct (Qc_div_le_1 a (m + 1)) as [B C]; auto.
  { eapply Qcle_trans; [exact L|]. unfold Qcminus in *. qlra. }
  split; [exact B|split; [exact C|]].
  set (x := fst (pt c)) in *. set (y := snd (pt c)) in *.
  assert (E1 : x - fst (pt K) = (m + 1) * (x - fst (pt p))) by (apply steps_end; exact P1).
  assert (E2 : y - snd (pt K) = (m + 1) * (y - snd (pt p))) by (apply steps_end; exact P2).
  rewrite Q1, Q2, E1, E2. split; field; auto.
Qed.

Lemma steps_on l : forall K p m q a, l <> [] ->
  (forall c r, l = c :: r -> steps K p c p m /\ steps K p c q a) -> 0 <= a -> a <= m ->
  on_curve (map pt (K :: thin p l)) (pt q).
Proof.
  induction l as [|c r IH]; intros K p m q a N H A L; [congruence|]. destruct (H c r eq_refl) as [P Q].
  destruct r as [|n r].
  - exists (pt K), (pt c). split; [exists [], []; auto|]. eapply segment_end; eauto.
  - change (thin p (c :: n :: r)) with (if midpoint p c n then thin c (n :: r) else c :: thin c (n :: r)).
    destruct (midpoint p c n) eqn:M.
    + apply midpoint_iff in M as [E1 E2]. apply (IH K c (m + 1) q a); auto; [discriminate| |].
      * intros c' r' E. injection E as <- <-. destruct P as [P1 P2], Q as [Q1 Q2]. unfold steps. rewrite E1, E2. repeat split; auto.
        -- rewrite <- (steps_end _ _ _ _ P1). ring.
        -- rewrite <- (steps_end _ _ _ _ P2). ring.
      * eapply Qcle_trans; [exact L|]. unfold Qcminus in *. qlra.
    + exists (pt K), (pt c). split; [exists [], (map pt (thin c (n :: r))); auto|]. eapply segment_end; eauto.
Qed.

Lemma thin_on l : forall K p m q, l <> [] -> (forall c r, l = c :: r -> steps K p c p m) -> 0 <= m -> In q (p :: l) ->
  on_curve (map pt (K :: thin p l)) (pt q).
Proof.
  induction l as [|c r IH]; intros K p m q N H Pm Hq; [congruence|].
  destruct Hq as [<-|Hq].
  { apply (steps_on (c :: r) K p m p m); auto; [|apply Qcle_refl]. intros c' r' E. split; apply (H c' r' E). }
  pose proof (H c r eq_refl) as P. destruct r as [|n r].
  - destruct Hq as [<-|[]]. exists (pt K), (pt c). split; [exists [], []; auto|].
    exists 1. repeat split; try ring; [unfold Qcminus in *; qlra|apply Qcle_refl].
  - change (thin p (c :: n :: r)) with (if midpoint p c n then thin c (n :: r) else c :: thin c (n :: r)).
    destruct (midpoint p c n) eqn:M.
    + apply midpoint_iff in M as [E1 E2]. apply (IH K c (m + 1) q); auto; [discriminate| |].
      * intros c' r' E. injection E as <- <-. destruct P as [P1 P2]. unfold steps. rewrite E1, E2. split.
        -- rewrite <- (steps_end _ _ _ _ P1). ring.
        -- rewrite <- (steps_end _ _ _ _ P2). ring.
      * unfold Qcminus in *. qlra.
    + apply (on_curve_cons (pt K) (map pt (c :: thin c (n :: r)))). apply (IH c c 0 q); auto; [discriminate| |apply Qcle_refl].
      intros c' r' E. unfold steps. split; ring.
Qed.

Lemma drop_on o l q : l <> [] -> In q (o :: l) -> on_curve (map pt (o :: drop_intermediate l)) (pt q).
Proof.
  intros N H. destruct l as [|p r]; [congruence|]. cbn [drop_intermediate].
  assert (Op : q = o \/ q = p \/ In q r) by (destruct H as [<-|[<-|H]]; auto).
  assert (Seg : forall u, 0 <= u -> u <= 1 -> fst (pt q) = fst (pt o) + u * (fst (pt p) - fst (pt o)) ->
    snd (pt q) = snd (pt o) + u * (snd (pt p) - snd (pt o)) -> on_curve (map pt (o :: p :: thin p r)) (pt q)).
  { intros u A B C D. exists (pt o), (pt p). split; [exists [], (map pt (thin p r)); auto|]. exists u. auto. }
  destruct Op as [->|[->|Hq]].
  - apply (Seg 0); try ring; [apply Qcle_refl|unfold Qcminus in *; qlra].
  - apply (Seg 1); try ring; [unfold Qcminus in *; qlra|apply Qcle_refl].
  - apply (on_curve_cons (pt o) (map pt (p :: thin p r))). apply (thin_on r p p 0 q); [destruct r; [destruct Hq|discriminate]| |apply Qcle_refl|right; auto].
    intros c r' E. unfold steps. split; ring.
Qed.

(** ** roc_curve and auc *)

Definition scale (F T : nat) (p : nat * nat) : Qc * Qc := (Qc_of_nat (fst p) / Qc_of_nat F, Qc_of_nat (snd p) / Qc_of_nat T).

Lemma trapz_scale F T l : Qc_of_nat F <> 0 -> Qc_of_nat T <> 0 ->
  trapz (map (scale F T) l) = trapz (map pt l) / (Qc_of_nat F * Qc_of_nat T).
Proof.
  intros NF NT. induction l as [|a l IH]; [cbn; unfold Qcdiv; ring|]. destruct l as [|b l]; [cbn; unfold Qcdiv; ring|].
  cbn [map] in *. rewrite !trapz_cons2, IH. unfold scale, pt. cbn [fst snd]. field. repeat split; auto. apply two_neq.
Qed.

Lemma on_curve_scale F T l q : on_curve (map pt l) (pt q) -> on_curve (map (scale F T) l) (scale F T q).
Proof.
  intros (a & b & (l1 & l2 & E) & u & U0 & U1 & X & Y).
  set (g := fun p : Qc * Qc => (fst p / Qc_of_nat F, snd p / Qc_of_nat T)).
  assert (EG : map (scale F T) l = map g (map pt l)) by (rewrite map_map; apply map_ext; intros p; reflexivity).
  exists (g a), (g b). split.
  - exists (map g l1), (map g l2). rewrite EG, E, map_app. auto.
  - exists u. split; [auto|split; [auto|]]. change (scale F T q) with (g (pt q)). unfold g. cbn [fst snd]. rewrite X, Y. unfold Qcdiv. split; ring.
Qed.

Lemma all_some_map {A B} (f : A -> B) l : all_some (map (fun x => Some (f x)) l) = Some (map f l).
Proof. induction l; cbn; auto. rewrite IHl. auto. Qed.

Definition known (p : Qc * Qc) : option Qc * option Qc := (Some (fst p), Some (snd p)).

Lemma auc_known l : auc (map known l) = Some (trapz l).
Proof.
  unfold auc. rewrite map_map. replace (map (fun x => numbers (known x)) l) with (map (fun x => Some ((fun p : Qc * Qc => p) x)) l).
  - rewrite all_some_map, map_id. auto.
  - apply map_ext. intros []. reflexivity.
Qed.

(** The fractions of the false and of the true observations that score at least [t]. *)
Definition rates_at (t : Qc) (l : list observation) : Qc * Qc :=
  (Qc_of_nat (negs_from t l) / Qc_of_nat (negs l), Qc_of_nat (poss_from t l) / Qc_of_nat (poss l)).

Lemma at_threshold_perm t l m : Permutation l m -> at_threshold t l = at_threshold t m.
Proof. intros P. unfold at_threshold, negs_from, poss_from. f_equal; [apply negs_perm|apply poss_perm]; apply filter_perm; auto. Qed.

Lemma roc_curve_ne l : l <> [] -> roc_curve l =
  let pts := (0, 0)%nat :: drop_intermediate (block_ends 0 0 (by_score l)) in
  let (F, T) := last pts (0, 0)%nat in Ok (map (fun p => (rate (fst p) F, rate (snd p) T)) pts).
Proof. destruct l; [congruence|reflexivity]. Qed.

Theorem roc_curve_spec l : (0 < negs l)%nat -> (0 < poss l)%nat ->
  exists roc, roc_curve l = Ok (map known roc) /\
    auc (map known roc) = Some (wins l l / (Qc_of_nat (poss l) * Qc_of_nat (negs l))) /\
    hd_error roc = Some (0, 0) /\ last roc (0, 0) = (1, 1) /\
    (forall p, In p roc -> p = (0, 0) \/ exists o, In o l /\ p = rates_at (snd o) l) /\
    (forall o, In o l -> on_curve roc (rates_at (snd o) l)).
Proof.
  intros HN HP.
  assert (Nl : l <> []) by (intros ->; cbn in HN; lia).
  assert (PB : Permutation (by_score l) l) by (symmetry; apply isort_perm).
  assert (Nb : by_score l <> []) by (intros E; rewrite E in PB; apply Permutation_nil in PB; auto).
  pose proof (Qc_of_nat_pos _ HN) as NF. pose proof (Qc_of_nat_pos _ HP) as NT.
  set (ends := block_ends 0 0 (by_score l)).
  assert (Ne : ends <> []) by (apply block_ends_nonempty; auto).
  assert (EL : last ((0, 0)%nat :: drop_intermediate ends) (0, 0)%nat = (negs l, poss l)).
  { rewrite drop_last by auto. unfold ends. rewrite block_last by auto. cbn [Nat.add]. rewrite (negs_perm _ _ PB), (poss_perm _ _ PB). auto. }
  set (pts := (0, 0)%nat :: drop_intermediate ends) in *.
  assert (BP : forall p, In p ends <-> exists o, In o l /\ p = at_threshold (snd o) l).
  { intros p. pose proof (block_points (by_score l) [] (by_score_sorted l) ltac:(intros x y []) p) as H.
    change (negs []) with 0%nat in H. change (poss []) with 0%nat in H. unfold ends. rewrite H. cbn [app].
    split; intros (o & Ho & ->); exists o; split.
    - apply (Permutation_in _ PB); auto.
    - apply at_threshold_perm; auto.
    - apply (Permutation_in _ (Permutation_sym PB)); auto.
    - apply at_threshold_perm. symmetry. auto. }
  exists (map (scale (negs l) (poss l)) pts). split; [|split; [|split; [|split; [|split]]]].
  - rewrite roc_curve_ne by auto. fold ends. fold pts. cbn zeta. rewrite EL. f_equal.
    rewrite map_map. apply map_ext. intros p. unfold rate, known, scale. cbn [fst snd].
    replace (negs l =? 0)%nat with false by (symmetry; apply Nat.eqb_neq; lia).
    replace (poss l =? 0)%nat with false by (symmetry; apply Nat.eqb_neq; lia). auto.
  - rewrite auc_known, trapz_scale by auto. unfold pts. rewrite area_drop. unfold ends. rewrite area_full. do 2 f_equal. ring.
  - unfold pts. cbn [map hd_error]. unfold scale. cbn [fst snd]. rewrite Qc_of_nat_0. do 2 f_equal; unfold Qcdiv; ring.
  - replace (0, 0) with (scale (negs l) (poss l) (0, 0)%nat) by (unfold scale; cbn [fst snd]; rewrite Qc_of_nat_0; f_equal; unfold Qcdiv; ring).
    assert (LM : forall (m : list (nat * nat)) d0, last (map (scale (negs l) (poss l)) m) (scale (negs l) (poss l) d0) = scale (negs l) (poss l) (last m d0)).
    { induction m as [|x m IH]; intros d0; auto. destruct m; auto. apply IH. }
    rewrite LM, EL. unfold scale. cbn [fst snd]. f_equal; field; auto.
  - intros p Hp. apply in_map_iff in Hp as (c & <- & [<-|Hc]).
    + left. unfold scale. cbn [fst snd]. rewrite Qc_of_nat_0. f_equal; unfold Qcdiv; ring.
    + right. assert (Hc' : In c ends). { destruct ends as [|e r]; [auto|]. destruct Hc as [<-|Hc]; [left; auto|right; eapply thin_incl; eauto]. }
      apply BP in Hc' as (o & Ho & ->). exists o. split; auto.
  - intros o Ho. change (rates_at (snd o) l) with (scale (negs l) (poss l) (at_threshold (snd o) l)). apply on_curve_scale. unfold pts.
    apply drop_on; auto. right. apply BP. exists o. auto.
Qed.

(** ** Bounds *)
Lemma win_bounds x y : 0 <= win x y /\ win x y <= 1.
Proof.
  unfold win. destruct (fst x && negb (fst y)); [|split; [apply Qcle_refl|discriminate]].
  destruct (Qc_eq_bool _ _); [split; discriminate|]. destruct (Qcleb _ _); split; discriminate.
Qed.

Definition rival (x y : observation) : Qc := if fst x && negb (fst y) then 1 else 0.

Lemma rivals l m : Qsum (fun x => Qsum (rival x) m) l = Qc_of_nat (poss l) * Qc_of_nat (negs m).
Proof.
  transitivity (Qsum (fun x : observation => if fst x then Qc_of_nat (negs m) else 0) l); [|apply sum_poss].
  apply Qsum_ext. intros x _. unfold rival. destruct (fst x); cbn [andb].
  - rewrite sum_negs. ring.
  - apply Qsum_zero.
Qed.

Lemma win_rival x y : win x y <= rival x y.
Proof.
  unfold win, rival. destruct (fst x && negb (fst y)); [|apply Qcle_refl].
  destruct (Qc_eq_bool _ _); [discriminate|]. destruct (Qcleb _ _); discriminate.
Qed.

Lemma wins_nonneg l m : 0 <= wins l m.
Proof. apply Qsum_nonneg. intros x _. apply Qsum_nonneg. intros y _. apply win_bounds. Qed.

Lemma wins_le l m : wins l m <= Qc_of_nat (poss l) * Qc_of_nat (negs m).
Proof. rewrite <- rivals. apply Qsum_le. intros x _. apply Qsum_le. intros y _. apply win_rival. Qed.

Lemma wins_all l m : wins l m = Qc_of_nat (poss l) * Qc_of_nat (negs m) <->
  forall x y, In x l -> In y m -> fst x = true -> fst y = false -> snd y < snd x.
Proof.
  split.
  - intros E x y Hx Hy Ex Ey.
    assert (Z : Qsum (fun x => Qsum (fun y => rival x y - win x y) m) l = 0).
    { transitivity (Qsum (fun x => Qsum (rival x) m + - (1) * Qsum (win x) m) l).
      - apply Qsum_ext. intros z _. rewrite <- Qsum_mul_l, <- Qsum_add. apply Qsum_ext. intros w _. ring.
      - rewrite Qsum_add, Qsum_mul_l, rivals. fold (wins l m). rewrite E. ring. }
    assert (NN : forall a c, 0 <= rival a c - win a c).
    { intros a c. pose proof (win_rival a c). unfold Qcminus in *. qlra. }
    pose proof (Qsum_zero_inv _ l (fun a _ => Qsum_nonneg _ m (fun c _ => NN a c)) Z x Hx) as Zx.
    pose proof (Qsum_zero_inv _ m (fun c _ => NN x c) Zx y Hy) as Zy. cbn beta in Zy.
    unfold rival, win in Zy. rewrite Ex, Ey in Zy. cbn [andb negb] in Zy.
    destruct (Qc_eq_bool_spec (snd x) (snd y)) as [Eq|Ne]; [discriminate Zy|].
    destruct (Qcleb (snd y) (snd x)) eqn:L; [|discriminate Zy]. apply Qcleb_iff in L.
    apply Qcle_lt_or_eq in L as [L|L]; auto. congruence.
  - intros H. rewrite (wins_const 1); [ring|]. intros x y Hx Hy Ex Ey. specialize (H x y Hx Hy Ex Ey). unfold win. rewrite Ex, Ey. cbn.
    destruct (Qc_eq_bool_spec (snd x) (snd y)) as [E|_].
    + rewrite E in H. apply Qclt_not_eq in H. congruence.
    + replace (Qcleb (snd y) (snd x)) with true; auto. symmetry. apply Qcleb_iff. apply Qclt_le_weak; auto.
Qed.

(** Without a false observation there is no area. *)
Lemma roc_curve_no_negs l : l <> [] -> negs l = 0%nat -> exists roc, roc_curve l = Ok roc /\ auc roc = None /\ (forall p, In p roc -> fst p = None).
Proof.
  intros N Z. rewrite roc_curve_ne by auto. cbn zeta.
  assert (PB : Permutation (by_score l) l) by (symmetry; apply isort_perm).
  assert (Nb : by_score l <> []) by (intros E; rewrite E in PB; apply Permutation_nil in PB; auto).
  rewrite drop_last by (apply block_ends_nonempty; auto). rewrite block_last by auto. cbn [Nat.add]. rewrite (negs_perm _ _ PB), Z.
  eexists. split; [reflexivity|]. split; [reflexivity|]. intros p Hp. apply in_map_iff in Hp as (c & <- & _). reflexivity.
Qed.
