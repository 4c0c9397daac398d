(** * SampleLaw: the random numbers that give a sample form a box whose volume is its probability. *)
From Coq Require Import List Bool Arith ZArith Lia String QArith Qcanon Permutation.
From Verif Require Import Base QcX Digraph BbnModel Kruskal InferModel InferSpec InferEngine InferOps InferMain InferProofs InferThms InferCheck InferWit SampleModel SampleProofs CausalCore CausalThms.
Import ListNotations.
Local Open Scope Qc_scope.
Local Open Scope list_scope.

Ltac ql := unfold Qcminus in *; qlra.

(** ** The order of the variables depends on the choices only *)
Fixpoint order (fuel : nat) (pk : nat -> nat) (ns : list string) (j : nat) (known : list string) : list string :=
  if List.length known <? List.length ns then
    match fuel with
    | O => []
    | S n =>
        let free := filter (fun v => negb (smem v known)) ns in
        match nth_error free (pk j mod List.length free) with
        | None => []
        | Some v => v :: order n pk ns (S j) (known ++ [v])
        end
    end
  else [].

Lemma order_ext fuel pk pk' ns : (forall j, pk j = pk' j) -> forall j known, order fuel pk ns j known = order fuel pk' ns j known.
Proof.
  intros H. induction fuel as [|n IH]; intros j known; simpl; auto. rewrite H. destruct (_ <? _)%nat; auto.
  destruct (nth_error _ _); auto. rewrite IH. auto.
Qed.

Lemma map_filter_nvar (ns : list bnode) known : map nvar (filter (fun n => negb (smem (nvar n) known)) ns) = filter (fun v => negb (smem v known)) (map nvar ns).
Proof. induction ns as [|n ns IH]; simpl; auto. destruct (smem (nvar n) known); simpl; rewrite IH; auto. Qed.

Lemma loop_order fuel D b i : forall j c s c' s', sample_loop fuel D b i j c s = Ok (c', s') ->
  map fst s' = map fst s ++ order fuel (pick D i) (map nvar (bnodes b)) j (map fst s).
Proof.
  induction fuel as [|n IH]; intros j c s c' s' H; cbn [sample_loop order] in *; rewrite !map_length.
  - destruct (_ <? _)%nat; [discriminate|]. injection H as <- <-. rewrite app_nil_r. auto.
  - destruct (_ <? _)%nat; [|injection H as <- <-; rewrite app_nil_r; auto].
    apply bind_ok in H. destruct H as ([c1 s1] & H1 & H2). cbn [fst snd] in H2.
    unfold sample_step in H1. cbv zeta. rewrite <- map_filter_nvar, map_length.
    destruct (nth_error (filter _ (bnodes b)) _) as [nd|] eqn:En; [|discriminate].
    rewrite (map_nth_error nvar _ _ En).
    apply bind_ok in H1. destruct H1 as (c2 & _ & H1). destruct (dget key_eqb c2 (items_key s)); [|discriminate].
    apply bind_ok in H1. destruct H1 as (x & _ & H1). injection H1 as <- <-.
    rewrite (IH _ _ _ _ _ H2). rewrite map_app. cbn [map fst]. rewrite <- app_assoc. auto.
Qed.

Lemma draw_order D b q : forall todo i c ss k s, draw_loop todo D b q i c = Ok ss -> nth_error ss k = Some s ->
  map fst s = map fst q ++ order (List.length (bnodes b)) (pick D (i + k)) (map nvar (bnodes b)) 0 (map fst q).
Proof.
  induction todo as [|n IH]; intros i c ss k s H Hk; cbn [draw_loop] in H.
  - injection H as <-. destruct k; discriminate.
  - apply bind_ok in H. destruct H as ([c1 s1] & H1 & H). apply bind_ok in H. destruct H as (rest & H2 & H). injection H as <-.
    destruct k as [|k]; cbn in Hk.
    + injection Hk as <-. rewrite Nat.add_0_r. exact (loop_order _ _ _ _ _ _ _ _ _ H1).
    + replace (i + S k)%nat with (S i + k)%nat by lia. exact (IH _ _ _ _ _ H2 Hk).
Qed.

(** ** Intervals *)
Fixpoint before (x : label) (l : list label) : list label :=
  match l with [] => [] | y :: r => if label_eqb x y then [] else y :: before x r end.

Lemma before_split l b x a : l = b ++ x :: a -> NoDup l -> before x l = b.
Proof.
  revert l. induction b as [|y b IH]; intros l -> ND; simpl.
  - destruct (label_eqb_spec x x); congruence.
  - inversion ND as [|? ? Ny ND']; subst. destruct (label_eqb_spec x y) as [->|Ne].
    + exfalso. apply Ny. apply in_app_iff. right. left. auto.
    + f_equal. apply IH; auto.
Qed.

Lemma split_before x l : In x l -> exists a, l = before x l ++ x :: a.
Proof.
  induction l as [|y l IH]; intros H; [destruct H|]. simpl. destruct (label_eqb_spec x y) as [->|Ne]; [exists l; auto|].
  destruct H as [->|H]; [congruence|]. destruct (IH H) as (a & E). exists a. simpl. f_equal. auto.
Qed.

Lemma interval_one (f : label -> Qc) r l : (forall x, 0 <= f x) -> forall b1 x a1 b2 y a2, l = b1 ++ x :: a1 -> l = b2 ++ y :: a2 ->
  Qsum f b1 < r -> r <= Qsum f b1 + f x -> Qsum f b2 < r -> r <= Qsum f b2 + f y -> x = y.
Proof.
  intros F. revert r. induction l as [|z l IH]; intros r b1 x a1 b2 y a2 E1 E2 H1 H2 H3 H4; [destruct b1; discriminate|].
  destruct b1 as [|z1 b1], b2 as [|z2 b2]; simpl in E1, E2.
  - congruence.
  - injection E1 as -> ->. injection E2 as -> E2. exfalso. rewrite Qsum_cons in H3.
    assert (0 <= Qsum f b2) by (apply Qsum_nonneg; auto). cbn in H2. ql.
  - injection E1 as -> E1. injection E2 as -> ->. exfalso. rewrite Qsum_cons in H1.
    assert (0 <= Qsum f b1) by (apply Qsum_nonneg; auto). cbn in H4. ql.
  - injection E1 as -> E1. injection E2 as -> E2. rewrite Qsum_cons in *.
    apply (IH (r - f z2) b1 x a1 b2 y a2); auto; ql.
Qed.

Lemma firstn_nth {A} (l : list A) : forall j y, nth_error l j = Some y -> firstn (S j) l = firstn j l ++ [y].
Proof. induction l as [|z l IH]; intros j y H; destruct j; simpl in *; try discriminate; [injection H as ->; auto|]. f_equal. apply IH. auto. Qed.

(** ** The box *)
Section Box.
  Variable N : net.
  Hypothesis SO : shape_ok N.
  Variables (obs w : list (string * label)) (ord : list string).
  Hypothesis NZ : Pr N (observed obs) <> 0.
  Hypothesis Vw : valid_obs N w.
  Hypothesis Fw : forall v, In v (vars N) -> In v (map fst w).
  Hypothesis Iw : incl obs w.
  Hypothesis NDo : NoDup (map fst obs ++ ord).
  Hypothesis Ord : forall v, In v ord -> In v (vars N).
  Hypothesis All : forall v, In v (vars N) -> In v (map fst obs) \/ In v ord.

  Definition told (v : string) : string * label := (v, value_in w v).
  Definition past (j : nat) : list (string * label) := obs ++ map told (firstn j ord).
  Definition var_at (j : nat) : string := nth j ord ""%string.
  Definition lo (j : nat) : Qc := Qsum (cond_prob N (past j) (var_at j)) (before (value_in w (var_at j)) (states_of N (var_at j))).
  Definition width (j : nat) : Qc := cond_prob N (past j) (var_at j) (value_in w (var_at j)).
  Definition hi (j : nat) : Qc := lo j + width j.

  Lemma told_in v : In v (vars N) -> In (told v) w.
  Proof.
    intros H. apply Fw in H. unfold told, value_in. destruct (dget String.eqb w v) as [x|] eqn:E.
    - apply (dget_In _ String.eqb_spec) in E. auto.
    - apply (dget_None _ String.eqb_spec) in E. tauto.
  Qed.

  Lemma var_in j : (j < List.length ord)%nat -> In (var_at j) (vars N).
  Proof. intros H. apply Ord. apply nth_In. auto. Qed.

  Lemma value_state j : (j < List.length ord)%nat -> In (value_in w (var_at j)) (states_of N (var_at j)).
  Proof. intros H. apply (proj2 Vw (var_at j) (value_in w (var_at j))). apply told_in. apply var_in. auto. Qed.

  Lemma states_nodup v : In v (vars N) -> NoDup (states_of N v).
  Proof.
    intros H. apply in_map_iff in H. destruct H as ([u c] & <- & H). cbn. rewrite (states_of_In N u c (ok_vars N SO) H). apply (ok_states N SO u c H).
  Qed.

  Lemma bounds j : (j < List.length ord)%nat -> 0 <= lo j /\ lo j <= hi j /\ hi j <= 1.
  Proof.
    intros H. pose proof (fun s => cond_prob_nonneg N (past j) (var_at j) s SO) as Nn.
    assert (0 <= lo j) by (apply Qsum_nonneg; auto). pose proof (Nn (value_in w (var_at j))) as W. fold (width j) in W.
    split; [auto|]. split; [unfold hi; ql|].
    destruct (split_before _ _ (value_state j H)) as (a & E).
    pose proof (cond_prob_sum N (past j) (var_at j) SO (var_in j H)) as S1. rewrite E, Qsum_app, Qsum_cons in S1.
    assert (0 <= Qsum (cond_prob N (past j) (var_at j)) a) by (apply Qsum_nonneg; auto).
    unfold hi, lo, width. destruct (Qc_eq_bool _ _); ql.
  Qed.

  Lemma firstn_snoc j : (j < List.length ord)%nat -> firstn (S j) ord = firstn j ord ++ [var_at j].
  Proof. intros H. apply firstn_nth. apply nth_error_nth'. auto. Qed.

  Lemma past_S j : (j < List.length ord)%nat -> past (S j) = past j ++ [told (var_at j)].
  Proof. intros H. unfold past. rewrite firstn_snoc by auto. rewrite map_app, app_assoc. auto. Qed.

  Lemma chain j : (j <= List.length ord)%nat -> Pr N (observed (past j)) = Pr N (observed obs) * Qprod width (seq 0 j).
  Proof.
    induction j as [|j IH]; intros H.
    - unfold past. simpl. rewrite app_nil_r. ring.
    - rewrite past_S by lia. rewrite seq_S, Qprod_app. cbn [Qprod fold_right map seq plus]. cbn.
      specialize (IH ltac:(lia)).
      assert (E : Pr N (observed (past j ++ [told (var_at j)])) = Pr_and N (past j) (var_at j) (value_in w (var_at j))).
      { unfold Pr_and, Pr. f_equal. apply filter_ext. intros a. unfold observed. rewrite forallb_app. cbn. rewrite andb_true_r. auto. }
      rewrite E. replace (Pr N (observed obs) * (Qprod width (seq 0 j) * (width j * 1))) with (Pr N (observed (past j)) * width j) by (rewrite IH; ring).
      unfold width, cond_prob. destruct (Qc_eq_bool_spec (Pr N (observed (past j))) 0) as [Z|Nz].
      + rewrite Pr_and_zero by auto. ring.
      + field. auto.
  Qed.

  Lemma past_all : Permutation (past (List.length ord)) w.
  Proof.
    unfold past. rewrite firstn_all. apply NoDup_Permutation.
    - apply (NoDup_map_inv fst). rewrite map_app, map_map. cbn. rewrite map_id. auto.
    - apply (NoDup_map_inv fst). apply Vw.
    - intros [v x]. rewrite in_app_iff, in_map_iff. split.
      + intros [H|(u & E & H)]; [auto|]. rewrite <- E. apply told_in. auto.
      + intros H. assert (Hv : In v (vars N)) by apply (proj2 Vw v x H).
        assert (X : x = value_in w v).
        { unfold value_in. rewrite (In_dget _ String.eqb_spec w v x (proj1 Vw) H). auto. }
        destruct (All v Hv) as [Ho|Ho].
        * left. apply in_map_iff in Ho. destruct Ho as ([u y] & Eu & Ho). cbn in Eu. subst u.
          pose proof (Iw _ Ho) as Hw. replace x with y; auto. pose proof (In_dget _ String.eqb_spec w v y (proj1 Vw) Hw) as E1.
          pose proof (In_dget _ String.eqb_spec w v x (proj1 Vw) H) as E2. congruence.
        * right. exists v. split; auto. unfold told. rewrite X. auto.
  Qed.

  Lemma observed_perm o o' a : Permutation o o' -> observed o a = observed o' a.
  Proof. intros H. unfold observed. induction H; simpl; auto; try congruence. destruct (label_eqb _ _), (label_eqb _ _); auto. Qed.

  Lemma volume : Qprod (fun j => hi j - lo j) (seq 0 (List.length ord)) = Pr N (observed w) / Pr N (observed obs).
  Proof.
    rewrite (Qprod_ext _ width) by (intros j _; unfold hi; ring).
    pose proof (chain (List.length ord) (le_n _)) as C.
    assert (E : Pr N (observed (past (List.length ord))) = Pr N (observed w)).
    { unfold Pr. f_equal. apply filter_ext. intros a. apply observed_perm. apply past_all. }
    rewrite E in C. rewrite C. field. auto.
  Qed.

  Variables (new : list (string * label)) (r : nat -> Qc).
  Hypothesis Names : map fst new = ord.
  Hypothesis Steps : forall j v x, nth_error new j = Some (v, x) ->
    exists bf af, states_of N v = bf ++ x :: af /\
      Qsum (cond_prob N (obs ++ firstn j new) v) bf < r j /\
      r j <= Qsum (cond_prob N (obs ++ firstn j new) v) bf + cond_prob N (obs ++ firstn j new) v x.

  Lemma new_len : List.length new = List.length ord.
  Proof. rewrite <- Names, map_length. auto. Qed.

  Lemma nth_new j : (j < List.length ord)%nat -> exists x, nth_error new j = Some (var_at j, x).
  Proof.
    intros H. rewrite <- new_len in H. destruct (nth_error new j) as [[v x]|] eqn:E; [|apply nth_error_None in E; lia].
    exists x. f_equal. f_equal. unfold var_at. symmetry. apply nth_error_nth. rewrite <- Names. apply (map_nth_error fst _ _ E).
  Qed.

  Lemma inside : (forall j, (j < List.length ord)%nat -> lo j < r j /\ r j <= hi j) -> forall j, (j <= List.length ord)%nat -> firstn j new = map told (firstn j ord).
  Proof.
    intros B. induction j as [|j IH]; intros H; [auto|]. specialize (IH ltac:(lia)). assert (Hj : (j < List.length ord)%nat) by lia.
    destruct (nth_new j Hj) as (x & E). rewrite (firstn_nth _ _ _ E), firstn_snoc, map_app, IH by auto. f_equal. cbn. unfold told. f_equal. f_equal.
    destruct (Steps _ _ _ E) as (bf & af & Es & H1 & H2). rewrite IH in H1, H2. fold (past j) in H1, H2.
    destruct (split_before _ _ (value_state j Hj)) as (a & Ea). destruct (B j Hj) as [B1 B2].
    eapply (interval_one (cond_prob N (past j) (var_at j)) (r j)); [intros; apply cond_prob_nonneg; auto|exact Es|exact Ea|auto|auto|exact B1|exact B2].
  Qed.

  Lemma box : Permutation (obs ++ new) w <-> forall j, (j < List.length ord)%nat -> lo j < r j /\ r j <= hi j.
  Proof.
    split.
    - intros P j Hj.
      assert (En : forall v x, In (v, x) new -> x = value_in w v).
      { intros v x Hin. unfold value_in. rewrite (In_dget _ String.eqb_spec w v x (proj1 Vw)); auto. apply (Permutation_in _ P). apply in_app_iff. auto. }
      assert (Em : new = map told ord).
      { rewrite <- Names, map_map. rewrite <- (map_id new) at 1. apply map_ext_in. intros [v x] Hin. unfold told. cbn. rewrite <- (En v x Hin). auto. }
      destruct (nth_new j Hj) as (x & E). pose proof (En _ _ (nth_error_In _ _ E)) as X.
      destruct (Steps _ _ _ E) as (bf & af & Es & H1 & H2).
      assert (Ep : obs ++ firstn j new = past j) by (unfold past; rewrite Em, firstn_map; auto).
      rewrite Ep in *. subst x. assert (Eb : before (value_in w (var_at j)) (states_of N (var_at j)) = bf).
      { apply (before_split _ _ _ _ Es). apply states_nodup. apply var_in. auto. }
      unfold hi, lo, width. rewrite Eb. auto.
    - intros B. pose proof (inside B (List.length ord) (le_n _)) as E. rewrite <- new_len in E at 1. rewrite !firstn_all in E. rewrite E.
      pose proof past_all as P. unfold past in P. rewrite firstn_all in P. auto.
  Qed.
End Box.

(** ** Engines *)
Lemma NoDup_app_r {A} (l m : list A) : NoDup (l ++ m) -> NoDup m.
Proof. induction l as [|x l IH]; auto. intros H. inversion H; auto. Qed.
Lemma NoDup_app_disj {A} (l m : list A) x : NoDup (l ++ m) -> In x l -> In x m -> False.
Proof.
  induction l as [|y l IH]; intros H Hl Hm; [destruct Hl|]. inversion H as [|? ? Hn Hd]; subst. destruct Hl as [->|Hl]; auto.
  apply Hn. apply in_app_iff. auto.
Qed.

Theorem sample_law bn obs (pk : nat -> nat) : good_bn bn -> valid_obs (net_of bn) obs -> Pr (net_of bn) (observed obs) <> 0 ->
  exists ord : list string,
  NoDup ord /\ (forall v, In v ord <-> In v (vars (net_of bn)) /\ ~ In v (map fst obs)) /\
  forall w, valid_obs (net_of bn) w -> (forall v, In v (vars (net_of bn)) -> In v (map fst w)) -> incl obs w ->
  exists lo hi : nat -> Qc,
    (forall j, (j < List.length ord)%nat -> 0 <= lo j /\ lo j <= hi j /\ hi j <= 1) /\
    Qprod (fun j => hi j - lo j) (seq 0 (List.length ord)) = Pr (net_of bn) (observed w) / Pr (net_of bn) (observed obs) /\
    forall (D : draws) n k e ss s, (forall i j, good_sched (scheds D i j)) -> (forall i j, 0 < rnd D i j /\ rnd D i j <= 1) ->
      (forall j, pick D k j = pk j) ->
      engine_new bn = Ok e -> draw_samples D (e_bbn e) obs n = Ok ss -> nth_error ss k = Some s ->
      map fst s = map fst obs ++ ord /\
      (Permutation s w <-> forall j, (j < List.length ord)%nat -> lo j < rnd D k j /\ rnd D k j <= hi j).
Proof.
  intros G VO NZ. set (N := net_of bn) in *.
  destruct (new_ok bn (good_bn_shape bn G)) as (e & Ee & _).
  set (ns := map nvar (bnodes (e_bbn e))). set (ord := order (List.length (bnodes (e_bbn e))) pk ns 0 (map fst obs)).
  assert (SO : shape_ok N) by apply G.
  assert (Ordd : NoDup (map fst obs ++ ord) /\ forall v, In v (map fst obs ++ ord) <-> In v (vars N)).
  { set (D0 := mkDraws (fun _ => pk) (fun _ _ => 1) (fun _ _ => ids)).
    destruct (new_samples bn D0 obs 1 G) as (e' & ss & E' & Es & L & H); auto.
    - intros i j. exact ids_good.
    - intros i j. split; [reflexivity|discriminate].
    - destruct ss as [|s ss]; [discriminate|]. destruct (H 0%nat s eq_refl) as (P & _).
      assert (e' = e) by congruence. subst e'.
      pose proof (draw_order D0 (e_bbn e) obs 1 0 [] (s :: ss) 0 s Es eq_refl) as M. cbn [plus pick D0] in M. fold ns ord in M. rewrite M in P.
      split; [apply (Permutation_NoDup (Permutation_sym P)), (ok_vars N SO)|]. intros v. split; apply Permutation_in; auto using Permutation_sym. }
  destruct Ordd as [NDo Ao].
  exists ord. split; [apply NoDup_app_r in NDo; auto|]. split.
  { intros v. split.
    - intros H. split; [apply Ao; apply in_app_iff; auto|]. intros Ho. apply (NoDup_app_disj _ _ v NDo); auto.
    - intros [H Ho]. apply Ao in H. apply in_app_iff in H. tauto. }
  intros w Vw Fw Iw. exists (lo N obs w ord), (hi N obs w ord).
  assert (Ord : forall v, In v ord -> In v (vars N)) by (intros v H; apply Ao; apply in_app_iff; auto).
  assert (All : forall v, In v (vars N) -> In v (map fst obs) \/ In v ord) by (intros v H; apply Ao in H; apply in_app_iff; auto).
  split; [intros j Hj; apply bounds; auto|]. split; [apply volume; auto|].
  intros D n k e' ss s GS R01 Hp E' Es Hk. assert (e' = e) by congruence. subst e'.
  assert (M : map fst s = map fst obs ++ ord).
  { rewrite (draw_order D (e_bbn e) obs n 0 [] ss k s Es Hk). f_equal. apply order_ext. intros j. apply Hp. }
  split; [exact M|].
  destruct (new_samples bn D obs n G GS R01 VO NZ) as (e' & ss' & E2 & Es2 & L & H). assert (e' = e) by congruence. subst e'.
  rewrite Es in Es2. injection Es2 as <-. destruct (H k s Hk) as (_ & _ & _ & new & Enew & St).
  rewrite Enew. apply box; auto.
  - rewrite Enew, map_app in M. apply app_inv_head in M. auto.
  - intros j v x Hj. destruct (St j v x Hj) as (_ & _ & bf & af & A & B & C). eauto.
Qed.
