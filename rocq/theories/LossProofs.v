(** * LossProofs: the losses are negative log-likelihoods. *)
From Coq Require Import List Bool Arith ZArith Lia String QArith Qcanon Qround Permutation Sorting.Sorted Reals Lra.
From Verif Require Import Base Names Digraph SmModel QcX NetModel NotearsModel NotearsProofs AcycModel AcycLink
  TorchModel TorchSpec TorchProofs TorchTotal SklModel OrdProofs SklPredict LossModel.
Import ListNotations.
Local Open Scope list_scope.
Local Open Scope nat_scope.

(** ** Single values *)
Lemma bce_simple x y : bce_logits x y = ((1 - y) * x + ln (1 + exp (- x)))%R.
Proof.
  unfold bce_logits. set (m := Rmax (- x) 0). rewrite Rplus_assoc. f_equal.
  rewrite <- (ln_exp m) at 1. rewrite <- ln_mult; [|apply exp_pos|pose proof (exp_pos (- m)); pose proof (exp_pos (- x - m)); lra].
  f_equal. rewrite Rmult_plus_distr_l, <- !exp_plus. replace (m + - m)%R with 0%R by ring. replace (m + (- x - m))%R with (- x)%R by ring. rewrite exp_0. auto.
Qed.
Lemma bce_one x : bce_logits x 1 = (- ln (sigmoid x))%R.
Proof. rewrite bce_simple. unfold sigmoid. rewrite ln_Rinv by (pose proof (exp_pos (- x)); lra). ring. Qed.
Lemma bce_zero x : bce_logits x 0 = (- ln (1 - sigmoid x))%R.
Proof.
  rewrite bce_simple. unfold sigmoid. pose proof (exp_pos (- x)) as P. replace (1 - / (1 + exp (- x)))%R with (exp (- x) * / (1 + exp (- x)))%R by (field; lra).
  rewrite ln_mult; auto; [|apply Rinv_0_lt_compat; lra]. rewrite ln_exp, ln_Rinv by lra. ring.
Qed.
Lemma ce_softmax l c : c < List.length l -> cross_entropy l c = Ok (- ln (nth c (softmax l) 0))%R.
Proof.
  intros H. unfold cross_entropy. rewrite (nth_error_nth' l 0%R H). f_equal.
  assert (P : (0 < SklModel.rsum (map exp l))%R) by (apply rsum_exp_pos; intros ->; cbn in H; lia).
  unfold softmax. rewrite (nth_indep (map _ l) 0%R (exp 0 / SklModel.rsum (map exp l))%R) by (rewrite map_length; auto).
  rewrite (map_nth (fun x => exp x / SklModel.rsum (map exp l))%R). unfold Rdiv. rewrite ln_mult; [|apply exp_pos|apply Rinv_0_lt_compat; auto].
  rewrite ln_exp, ln_Rinv by auto. ring.
Qed.
Lemma poisson_pmf z k : poisson_nll z (INR k) = (- ln (exp (- exp z) * exp z ^ k / INR (fact k)) - ln (INR (fact k)))%R.
Proof.
  unfold poisson_nll. pose proof (INR_fact_lt_0 k) as F. pose proof (exp_pos z) as E. assert (Ek : (0 < exp z ^ k)%R) by (apply pow_lt; auto).
  unfold Rdiv. rewrite !ln_mult; auto; [|apply exp_pos|apply Rmult_lt_0_compat; auto; apply exp_pos|apply Rinv_0_lt_compat; auto].
  rewrite ln_exp, ln_Rinv by auto. rewrite ln_pow by auto. rewrite ln_exp. ring.
Qed.
Lemma gauss_density x z : (0.5 * (z - x) ^ 2)%R = (- ln (exp (- (x - z) ^ 2 / 2) / sqrt (2 * PI)) - ln (sqrt (2 * PI)))%R.
Proof.
  assert (P : (0 < sqrt (2 * PI))%R) by (apply sqrt_lt_R0; pose proof PI_RGT_0; lra).
  unfold Rdiv at 1. rewrite ln_mult; [|apply exp_pos|apply Rinv_0_lt_compat; auto]. rewrite ln_exp, ln_Rinv by auto. lra.
Qed.

(** ** Encodings *)
Lemma Qc_eq_bool_iff x y : Qc_eq_bool x y = true <-> x = y.
Proof. unfold Qc_eq_bool. destruct (Qc_eq_dec x y); split; congruence. Qed.

Lemma position_lt cs x : In x cs -> position cs x < List.length cs.
Proof. induction cs as [|c cs IH]; intros I; [destruct I|]. cbn. destruct (Qc_eq_bool c x) eqn:E; [lia|]. destruct I as [->|I]; [|specialize (IH I); lia]. assert (Qc_eq_bool x x = true) by (apply Qc_eq_bool_iff; auto). congruence. Qed.

Lemma argmax_one_hot cs x : In x cs -> argmax (one_hot cs x) = position cs x.
Proof.
  induction cs as [|c cs IH]; intros I; [destruct I|]. cbn [one_hot map argmax position]. fold (one_hot cs x).
  destruct (Qc_eq_bool c x) eqn:E.
  - assert (A : forallb (fun y => qle y 1%Qc) (one_hot cs x) = true); [|rewrite A; auto].
    apply forallb_forall. intros y Hy. apply in_map_iff in Hy. destruct Hy as (u & <- & _). destruct (Qc_eq_bool u x); reflexivity.
  - destruct I as [->|I]; [exfalso; assert (Qc_eq_bool x x = true) by (apply Qc_eq_bool_iff; auto); congruence|].
    assert (A : forallb (fun y => qle y 0%Qc) (one_hot cs x) = false); [|rewrite A; f_equal; auto].
    destruct (forallb _ _) eqn:F; auto. exfalso. rewrite forallb_forall in F. specialize (F 1%Qc). assert (qle 1%Qc 0%Qc = true); [|discriminate].
    apply F. apply in_map_iff. exists x. split; auto. destruct (Qc_eq_bool x x) eqn:Q; auto. assert (Qc_eq_bool x x = true) by (apply Qc_eq_bool_iff; auto). congruence.
Qed.

(** How many distinct values of the column are smaller. *)
Definition rank (col : list Qc) (x : Qc) : nat := List.length (nodup Qc_eq_dec (filter (fun y => qlt y x) col)).

Lemma position_count cs x : StronglySorted (fun a b => qle a b = true) cs -> NoDup cs -> In x cs -> position cs x = List.length (filter (fun y => qlt y x) cs).
Proof.
  induction 1 as [|c cs Hs IH F]; intros N I; [destruct I|]. apply NoDup_cons_iff in N. destruct N as [Nc N]. rewrite Forall_forall in F. cbn [position filter].
  destruct (Qc_eq_bool c x) eqn:E.
  - apply Qc_eq_bool_iff in E. subst c. assert (Q : qlt x x = false) by (apply qlt_false; apply Qcle_refl). rewrite Q.
    assert (Z : filter (fun y => qlt y x) cs = []); [|rewrite Z; auto].
    assert (G : forall y, In y cs -> qlt y x = false) by (intros y Hy; apply qlt_false; apply qle_iff; auto).
    clear - G. induction cs as [|y cs IH]; auto. cbn. rewrite (G y) by (left; auto). apply IH. intros; apply G; right; auto.
  - destruct I as [->|I]; [exfalso; assert (Qc_eq_bool x x = true) by (apply Qc_eq_bool_iff; auto); congruence|].
    assert (Q : qlt c x = true). { apply qlt_iff. specialize (F x I). apply qle_iff in F. apply Qcle_lt_or_eq in F. destruct F as [F|F]; auto. subst. contradiction. }
    rewrite Q. cbn. f_equal. apply IH; auto.
Qed.

Lemma position_rank col x : In x col -> position (categories col) x = rank col x.
Proof.
  intros I. rewrite position_count; [|apply cats_sorted|apply categories_NoDup|apply categories_In; auto]. unfold rank.
  apply Permutation_length. apply NoDup_Permutation; [apply NoDup_filter; apply categories_NoDup|apply NoDup_nodup|].
  intros y. rewrite nodup_In, !filter_In, categories_In. tauto.
Qed.

(** What a value looks like in the prepared data. *)
Definition enc (t : dtype) (x : Qc) : list Qc :=
  match dt_kind t with Cat => one_hot (dt_cats t) x | Ord => [Q2Qc (inject_Z (Z.of_nat (position (dt_cats t) x)))] | _ => [x] end.

Lemma picks_columns is X Y : List.length (rows X) = List.length (rows Y) -> (forall j, In j is -> column j X = column j Y) ->
  map (picks 0%Qc is) (rows X) = map (picks 0%Qc is) (rows Y).
Proof.
  unfold column, picks. destruct X as [w R], Y as [w' R']. cbn [rows]. revert R'. induction R as [|r R IH]; intros [|r' R'] L H; cbn in L; try lia; auto.
  cbn [map]. f_equal.
  - apply map_ext_in. intros j Hj. specialize (H j Hj). cbn in H. congruence.
  - apply IH; [lia|]. intros j Hj. specialize (H j Hj). cbn in H. congruence.
Qed.

Lemma picks_tail {A} (l : list A) (d : A) : forall m r, m = List.length r -> picks d (seq m (List.length l)) (r ++ l) = l.
Proof.
  induction l as [|x l IH]; intros m r E; [reflexivity|]. cbn [List.length seq]. unfold picks. cbn [map]. f_equal.
  - rewrite app_nth2 by lia. rewrite E, Nat.sub_diag. auto.
  - fold (picks d (seq (S m) (List.length l)) (r ++ x :: l)). replace (r ++ x :: l) with ((r ++ [x]) ++ l) by (rewrite <- app_assoc; auto).
    apply IH. rewrite app_length. cbn. lia.
Qed.

Lemma fit_rows k i X dt X1 : rect X -> i < width X -> preprocess_fit k i X = Ok (dt, X1) ->
  map (picks 0%Qc (dt_columns dt)) (rows X1) = map (fun r => enc dt (nth i r 0%Qc)) (rows X).
Proof.
  intros R Hi E. assert (R' : forall r, In r (rows X) -> List.length r = width X) by (apply Forall_forall; exact R).
  unfold preprocess_fit in E. destruct k.
  - injection E as <- <-. apply map_ext. intros r. reflexivity.
  - injection E as <- <-. cbn [rows width dt_columns dt_kind dt_group enc dt_cats]. rewrite map_map. apply map_ext_in. intros r Hr. unfold enc. cbn [dt_kind dt_cats].
    set (cs := categories (column i X)). unfold expand_row.
    assert (Ic : In (nth i r 0%Qc) cs) by (apply categories_In; apply in_map_iff; eauto).
    assert (Lo : List.length (one_hot cs (nth i r 0%Qc)) = List.length cs) by apply one_hot_length.
    destruct (one_hot cs (nth i r 0%Qc)) as [|e es] eqn:Eo; [cbn in Lo; destruct cs; [destruct Ic|discriminate]|]. cbn [hd tl].
    cbn [List.length] in Lo. unfold picks. cbn [map]. rewrite app_nth1 by (rewrite set_nth_length; rewrite R'; auto). rewrite set_nth_same by (rewrite R'; auto). f_equal.
    replace (width X + (List.length cs - 1) - (List.length cs - 1)) with (width X) by lia. replace (width X + (List.length cs - 1) - width X) with (List.length es) by lia.
    fold (picks 0%Qc (seq (width X) (List.length es)) (set_nth i e r ++ es)). apply picks_tail. rewrite set_nth_length; rewrite R'; auto.
  - injection E as <- <-. apply map_ext. intros r. reflexivity.
  - injection E as <- <-. cbn [rows width]. rewrite map_map. apply map_ext_in. intros r Hr. unfold enc, picks, dt_columns. cbn [dt_kind dt_cats dt_idx map].
    rewrite set_nth_same by (rewrite R'; auto). reflexivity.
  - destruct (existsb _ _); [discriminate|]. injection E as <- <-. apply map_ext. intros r. reflexivity.
Qed.

Lemma prepare_untouched ks : forall X t dts X' t', rect X -> NoDup (map fst ks) -> (forall i, In i (map fst ks) -> i < width X) -> prepare ks X t = Ok (dts, X', t') ->
  forall j, j < width X -> ~ In j (map fst ks) -> column j X' = column j X.
Proof.
  induction ks as [|[i k] ks IH]; intros X t dts X' t' R N B E j Hj Nj; cbn [prepare] in E.
  - injection E as <- <- <-. auto.
  - apply bind_ok in E. destruct E as ([dt X1] & E1 & E). apply bind_ok in E. destruct E as ([[dts1 X2] t2] & E2 & E). cbn [fst snd] in *. injection E as <- <- <-.
    cbn in N. apply NoDup_cons_iff in N. destruct N as [Ni N]. pose proof (B i (or_introl eq_refl)) as Bi.
    destruct (preprocess_fit_spec k i X dt X1 R Bi E1) as (Ei & Ek & R1 & W1 & C1 & G1 & O1).
    rewrite (IH X1 _ _ _ _ R1 N) with (j := j) (2 := E2); [apply O1; auto; intros ->; apply Nj; left; auto| |lia|intros Q; apply Nj; right; auto].
    intros u Hu. pose proof (B u (or_intror Hu)). lia.
Qed.

Lemma prepare_rows ks : forall X t dts X' t', rect X -> NoDup (map fst ks) -> (forall i, In i (map fst ks) -> i < width X) -> prepare ks X t = Ok (dts, X', t') ->
  forall dt, In dt dts -> map (picks 0%Qc (dt_columns dt)) (rows X') = map (fun r => enc dt (nth (dt_idx dt) r 0%Qc)) (rows X).
Proof.
  induction ks as [|[i k] ks IH]; intros X t dts X' t' R N B E dt0 I; cbn [prepare] in E.
  - injection E as <- <- <-. destruct I.
  - apply bind_ok in E. destruct E as ([dt X1] & E1 & E). apply bind_ok in E. destruct E as ([[dts1 X2] t2] & E2 & E). cbn [fst snd] in *. injection E as <- <- <-.
    cbn in N. apply NoDup_cons_iff in N. destruct N as [Ni N]. pose proof (B i (or_introl eq_refl)) as Bi.
    destruct (preprocess_fit_spec k i X dt X1 R Bi E1) as (Ei & Ek & R1 & W1 & C1 & G1 & O1).
    assert (Bj : forall j, In j (map fst ks) -> j < width X1) by (intros j Hj; rewrite W1; pose proof (B j (or_intror Hj)); lia).
    destruct (prepare_layout ks _ _ _ _ _ R1 N Bj E2) as (_ & K & _ & _ & _ & L2).
    destruct I as [<-|I].
    + rewrite Ei. rewrite <- (fit_rows k i X dt X1 R Bi E1). apply picks_columns; auto. intros j Hj. apply (prepare_untouched _ _ _ _ _ _ R1 N Bj E2).
      * rewrite C1 in Hj. destruct Hj as [<-|Hj]; [lia|]. apply in_seq in Hj. lia.
      * rewrite C1 in Hj. destruct Hj as [<-|Hj]; auto. apply in_seq in Hj. intros Q. pose proof (B j (or_intror Q)). lia.
    + rewrite (IH X1 _ _ _ _ R1 N Bj E2 dt0 I).
      assert (Id : In (dt_idx dt0) (map fst ks)) by (rewrite <- K, map_map; apply in_map_iff; exists dt0; auto).
      assert (C : column (dt_idx dt0) X1 = column (dt_idx dt0) X) by (apply O1; [apply B; right; auto|intros Q; apply Ni; rewrite <- Q; auto]).
      unfold column in C. transitivity (map (enc dt0) (map (fun r => nth (dt_idx dt0) r 0%Qc) (rows X1))); [rewrite map_map; auto|]. rewrite C, map_map. auto.
Qed.
