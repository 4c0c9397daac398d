(** * LossNll: the sum of the losses is the mean negative log-likelihood. *)
From Coq Require Import List Bool Arith ZArith Lia String QArith Qcanon Qround Permutation Reals Lra.
From Verif Require Import Base Names Digraph SmModel QcX NetModel NotearsModel NotearsProofs AcycModel AcycLink
  TorchModel TorchSpec TorchProofs TorchTotal SklModel OrdProofs SklPredict LossModel LossProofs LossSpec.
Import ListNotations.
Local Open Scope list_scope.
Local Open Scope nat_scope.

Lemma place_rank col x : place col x = rank col x.
Proof. reflexivity. Qed.

Lemma combine_ext {A A' B C D} (g : A -> C) (h : A' -> C) (F : C -> B -> D) : forall (l : list A) (m : list A') (z : list B), map g l = map h m ->
  map (fun p => F (g (fst p)) (snd p)) (combine l z) = map (fun p => F (h (fst p)) (snd p)) (combine m z).
Proof.
  induction l as [|a l IH]; intros [|b m] z E; cbn in E; try discriminate; auto. injection E as E1 E2. destruct z as [|c z]; auto. cbn. rewrite E1. f_equal. auto.
Qed.
Lemma combine_ext_r {A B B' C D} (g : B -> C) (h : B' -> C) (F : A -> C -> D) : forall (l : list A) (z : list B) (z' : list B'), map g z = map h z' ->
  map (fun p => F (fst p) (g (snd p))) (combine l z) = map (fun p => F (fst p) (h (snd p))) (combine l z').
Proof.
  induction l as [|a l IH]; intros z z' E; auto. destruct z as [|b z], z' as [|b' z']; cbn in E; try discriminate; auto. injection E as E1 E2. cbn. rewrite E1. f_equal. auto.
Qed.
Lemma mapM_map {A B} (f : A -> res B) l : mapM f l = mapM (fun x => x) (map f l).
Proof. induction l as [|a l IH]; auto. cbn. rewrite IH. auto. Qed.
Lemma mapM_pure {A B} (f : A -> B) l : mapM (fun x => Ok (f x)) l = Ok (map f l).
Proof. induction l as [|a l IH]; auto. cbn. rewrite IH. auto. Qed.

Lemma rmean_average l : rmean l = average l. Proof. reflexivity. Qed.
Lemma average_half {A} (f : A -> R) (l : list A) : (0.5 / INR (List.length l) * SklModel.rsum (map (fun a => f a ^ 2) l) = average (map (fun a => 0.5 * f a ^ 2) l))%R.
Proof.
  unfold average. rewrite map_length. transitivity (0.5 * SklModel.rsum (map (fun a => f a ^ 2) l) / INR (List.length l))%R; [unfold Rdiv; ring|].
  f_equal. unfold SklModel.rsum. induction l as [|a l IH]; cbn [map fold_right]; [ring|]. rewrite <- IH. ring.
Qed.

(** What is reported for a type from a row after the inverse link. *)
Definition shown (t : dtype) (row : list R) : list R := match dt_kind t with Ord => row | _ => pick (dt_columns t) row end.

Lemma linked_shown t Z M : dt_kind t <> Ord -> Forall2 (linked t) Z M -> map (shown t) M = map (fun z => link (dt_kind t) (pick (dt_columns t) z)) Z.
Proof.
  intros K. unfold shown. induction 1 as [|z m Z M [_ H] _ IH]; auto. cbn [map]. rewrite IH, H. f_equal. destruct (dt_kind t); auto. congruence.
Qed.
Lemma Forall2_length' {A B} (P : A -> B -> Prop) l m : Forall2 P l m -> List.length l = List.length m.
Proof. induction 1; cbn; auto. Qed.

Lemma nat_floor n : natural (Q2Qc (inject_Z (Z.of_nat n))) = n.
Proof. unfold natural. cbn [this Q2Qc]. rewrite Qred_correct, Qfloor_Z. apply Nat2Z.id. Qed.

Section Type_.
  Context (odds : nat -> list R) (t : dtype) (X X' : data) (Z : list (list R)).
  Context (Wz : Forall (fun z => List.length z = width X') Z) (Lz : List.length Z = List.length (rows X)).
  Context (Bc : Forall (fun j => j < width X') (dt_columns t)) (G : good_dt t).
  Context (Cs : dt_kind t = Cat \/ dt_kind t = Ord -> dt_cats t = categories (column (dt_idx t) X)).
  Context (En : map (picks 0%Qc (dt_columns t)) (rows X') = map (fun r => enc t (nth (dt_idx t) r 0%Qc)) (rows X)).
  Context (Od : dt_kind t = Ord -> odds (dt_idx t) = log_cum_odds (column (dt_idx t) X)).
  Context (Gl : dt_kind t = Cat -> List.length (dt_group t) = List.length (dt_cats t)).
  Let k := dt_kind t.
  Let i := dt_idx t.
  Let col := column i X.

  Definition row_nll (k : kind) (col : list Qc) (x : Qc) (ps : list R) : R := (- ln (likelihood k col x ps) - constant k x)%R.

  Lemma rows_same : List.length (rows X') = List.length (rows X).
  Proof. apply (f_equal (@List.length _)) in En. rewrite !map_length in En. auto. Qed.

  Lemma in_col r : In r (rows X) -> In (nth i r 0%Qc) col.
  Proof. intros H. apply in_map_iff. eauto. Qed.

  Lemma one_column : k <> Cat -> dt_columns t = [i].
  Proof. unfold k, dt_columns. destruct (dt_kind t); intros; congruence || auto. Qed.

  Lemma plain_row (F : Qc -> list R -> R) : k <> Cat -> k <> Ord ->
    map (fun p => F (nth i (fst p) 0%Qc) (snd p)) (combine (rows X') Z) = map (fun p => F (nth i (fst p) 0%Qc) (snd p)) (combine (rows X) Z).
  Proof.
    intros K1 K2. apply (combine_ext (fun r => nth i r 0%Qc) (fun r => nth i r 0%Qc) F). pose proof En as E. rewrite (one_column K1) in E.
    apply (f_equal (map (hd 0%Qc))) in E. rewrite !map_map in E. cbn in E. rewrite E. apply map_ext. intros r. unfold enc. fold k i. destruct k; congruence || auto.
  Qed.

  Lemma link_ok : k <> Ord -> exists M, inverse_link odds t (mkRm (width X') Z) = Ok M /\ r_width M = width X' /\ Forall2 (linked t) Z (r_rows M).
  Proof.
    intros K. destruct (inverse_link odds t (mkRm (width X') Z)) as [M|e] eqn:E.
    - exists M. split; auto. destruct (link_step odds t (mkRm (width X') Z) M K G Wz E) as (_ & H2 & H3). auto.
    - exfalso. unfold inverse_link in E. cbn [r_width r_rows] in E. unfold dt_columns in Bc. fold k in E, Bc. destruct k; try congruence.
      + inversion Bc as [|? ? B ?]. apply Nat.ltb_lt in B. rewrite B in E. discriminate.
      + assert (B : forallb (fun j => j <? width X') (dt_group t) = true); [|rewrite B in E; discriminate].
        apply forallb_forall. intros j Hj. apply Nat.ltb_lt. rewrite Forall_forall in Bc. auto.
      + inversion Bc as [|? ? B ?]. apply Nat.ltb_lt in B. rewrite B in E. discriminate.
  Qed.

  Definition reported (M : rmat) : Prop :=
    List.length (r_rows M) = List.length (rows X) /\
    (forall r m, In (r, m) (combine (rows X) (r_rows M)) -> 0 < likelihood k col (nth i r 0%Qc) (shown t m))%R /\
    dist_loss odds t X' Z = Ok (average (map (fun p => row_nll k col (nth i (fst p) 0%Qc) (shown t (snd p))) (combine (rows X) (r_rows M)))).

  Lemma not_ord (f : Qc -> list R -> R) M : k <> Ord -> Forall2 (linked t) Z (r_rows M) ->
    (forall x z, In x col -> 0 < likelihood k col x (link k (pick (dt_columns t) z)) /\ row_nll k col x (link k (pick (dt_columns t) z)) = f x z)%R ->
    dist_loss odds t X' Z = Ok (average (map (fun p => f (nth i (fst p) 0%Qc) (snd p)) (combine (rows X) Z))) -> reported M.
  Proof.
    intros K F H D. unfold reported. pose proof (linked_shown t Z (r_rows M) K F) as Sh. split; [|split].
    - rewrite <- (Forall2_length' _ _ _ F). auto.
    - intros r m Irm. assert (Im : In (shown t m) (map (shown t) (r_rows M))) by (apply in_map; apply (in_combine_r _ _ _ _ Irm)).
      rewrite Sh in Im. apply in_map_iff in Im. destruct Im as (z & <- & _). apply H. apply in_col. apply (in_combine_l _ _ _ _ Irm).
    - rewrite D. do 2 f_equal.
      rewrite (combine_ext_r (shown t) (fun z => link k (pick (dt_columns t) z)) (fun r ps => row_nll k col (nth i r 0%Qc) ps) _ _ _ Sh).
      apply map_ext_in. intros [r z] Hp. cbn [fst snd]. symmetry. apply H. apply in_col. apply (in_combine_l _ _ _ _ Hp).
  Qed.

  (** The loss of one row, for a value [x] and the outputs [z]. *)
  Definition row_loss (x : Qc) (z : list R) : R :=
    match k with
    | Bin => bce_logits (nth i z 0%R) (realq x)
    | Cat => (- nth (position (dt_cats t) x) (pick (dt_group t) z) 0 + ln (SklModel.rsum (map exp (pick (dt_group t) z))))%R
    | Poiss => poisson_nll (nth i z 0%R) (realq x)
    | _ => (0.5 * (nth i z 0 - realq x) ^ 2)%R
    end.

  Lemma loss_rows : k <> Ord -> dist_loss odds t X' Z = Ok (average (map (fun p => row_loss (nth i (fst p) 0%Qc) (snd p)) (combine (rows X) Z))).
  Proof.
    intros K. unfold row_loss. destruct k eqn:Ek; try congruence.
    - unfold dist_loss. fold k. rewrite Ek. fold i. rewrite rmean_average.
      rewrite (plain_row (fun x z => bce_logits (nth i z 0%R) (realq x))) by congruence. auto.
    - assert (Cs' := Cs (or_introl Ek)). fold i col in Cs'. assert (Dc : dt_columns t = dt_group t) by (unfold dt_columns; fold k; rewrite Ek; auto).
      unfold dist_loss. fold k. rewrite Ek. fold i. rewrite mapM_map.
      rewrite (combine_ext (picks 0%Qc (dt_group t)) (fun r => enc t (nth i r 0%Qc)) (fun e z => cross_entropy (picks 0%R (dt_group t) z) (argmax e)) (rows X') (rows X)) by (rewrite <- Dc; exact En).
      rewrite (map_ext_in _ (fun p => Ok (- nth (position (dt_cats t) (nth i (fst p) 0%Qc)) (pick (dt_group t) (snd p)) 0 + ln (SklModel.rsum (map exp (pick (dt_group t) (snd p)))))%R)).
      + rewrite <- mapM_map, mapM_pure. cbn [bind]. rewrite rmean_average. auto.
      + intros [r z] Hp. cbn [fst snd]. assert (Hx : In (nth i r 0%Qc) col) by (apply in_col; apply (in_combine_l _ _ _ _ Hp)).
        assert (Hc : In (nth i r 0%Qc) (dt_cats t)) by (rewrite Cs'; apply categories_In; auto).
        unfold enc. fold k. rewrite Ek. rewrite argmax_one_hot by auto. change (picks 0%R (dt_group t) z) with (pick (dt_group t) z). unfold cross_entropy.
        rewrite (nth_error_nth' _ 0%R); auto. unfold pick. rewrite map_length, (Gl Ek). apply position_lt. auto.
    - unfold dist_loss. fold k. rewrite Ek. fold i.
      rewrite (plain_row (fun x z => (nth i z 0 - realq x) ^ 2)%R) by congruence. f_equal.
      rewrite <- (average_half (fun p => nth i (snd p) 0 - realq (nth i (fst p) 0%Qc))%R (combine (rows X) Z)). do 3 f_equal.
      rewrite combine_length, rows_same. lia.
    - unfold dist_loss. fold k. rewrite Ek. fold i. rewrite rmean_average.
      rewrite (plain_row (fun x z => poisson_nll (nth i z 0%R) (realq x))) by congruence. auto.
  Qed.

  Lemma type_nll : suitable k col -> exists M, inverse_link odds t (mkRm (width X') Z) = Ok M /\ reported M.
  Proof.
    intros Su. pose proof loss_rows as Lr. unfold row_loss in Lr. destruct k eqn:Ek.
    - (* Bin *)
      destruct link_ok as (M & E & _ & F); [congruence|]. exists M. split; auto.
      apply (not_ord (fun x z => bce_logits (nth i z 0%R) (realq x))); auto; [congruence| |apply Lr; congruence].
      intros x z Hx. rewrite Ek, (one_column ltac:(congruence)). cbn [pick map link]. pose proof (sigmoid_bounds (nth i z 0%R)).
      destruct (Su x Hx) as [->| ->]; unfold row_nll; cbn [likelihood constant hd].
      + destruct (Qc_eq_dec 0 1) as [Q|]; [discriminate|]. split; [lra|]. rewrite realq_0, bce_zero. lra.
      + destruct (Qc_eq_dec 1 1) as [|]; [|congruence]. split; [lra|]. rewrite realq_1, bce_one. lra.
    - (* Cat *)
      destruct link_ok as (M & E & _ & F); [congruence|]. exists M. split; auto. assert (Cs' := Cs (or_introl Ek)). fold i col in Cs'.
      assert (Dc : dt_columns t = dt_group t) by (unfold dt_columns; fold k; rewrite Ek; auto).
      apply (not_ord (fun x z => - nth (position (dt_cats t) x) (pick (dt_group t) z) 0 + ln (SklModel.rsum (map exp (pick (dt_group t) z))))%R); auto; [congruence| |apply Lr; congruence].
      intros x z Hx. rewrite Ek, Dc. unfold row_nll. cbn [likelihood constant link]. rewrite place_rank, <- position_rank by auto. rewrite Cs'.
      assert (Lp : position (categories col) x < List.length (pick (dt_group t) z)).
      { unfold pick. rewrite map_length, (Gl Ek), Cs'. apply position_lt. apply categories_In. auto. }
      split.
      + assert (Ds : distribution (softmax (pick (dt_group t) z))) by (apply softmax_distribution; intros Q; rewrite Q in Lp; cbn in Lp; lia).
        destruct Ds as [Ds _]. rewrite Forall_forall in Ds. apply Ds. apply nth_In. rewrite softmax_length. auto.
      + pose proof (ce_softmax _ _ Lp) as Ce. unfold cross_entropy in Ce. rewrite (nth_error_nth' _ 0%R Lp) in Ce. injection Ce as ->. lra.
    - (* Cont *)
      destruct link_ok as (M & E & _ & F); [congruence|]. exists M. split; auto.
      apply (not_ord (fun x z => 0.5 * (nth i z 0 - realq x) ^ 2)%R); auto; [congruence| |apply Lr; congruence].
      intros x z Hx. rewrite Ek, (one_column ltac:(congruence)). unfold row_nll. cbn [pick map link likelihood constant hd]. split; [|symmetry; apply gauss_density].
      apply Rdiv_lt_0_compat; [apply exp_pos|apply sqrt_lt_R0; pose proof PI_RGT_0; lra].
    - (* Ord *)
      assert (Cs' := Cs (or_intror Ek)). fold i col in Cs'. assert (Od' := Od Ek). fold i col in Od'. cbn [suitable] in Su.
      assert (Dc : dt_columns t = [i]) by (unfold dt_columns; fold k; rewrite Ek; auto).
      pose (pr := fun z => match get_probs (log_cum_odds col) z with Ok ps => ps | Err _ => [] end).
      assert (Pr : forall z, get_probs (log_cum_odds col) z = Ok (pr z) /\ List.length (pr z) = List.length (nodup Qc_eq_dec col) /\ distribution (pr z)).
      { intros z. destruct (ordinal_probs col z Su) as (ps & E1 & E2 & E3 & _). unfold pr. rewrite E1. auto. }
      unfold inverse_link. fold k. rewrite Ek. fold i. cbn [r_width r_rows].
      assert (Bi : i <? width X' = true) by (apply Nat.ltb_lt; rewrite Dc in Bc; inversion Bc; auto). rewrite Bi, Od'.
      assert (Em : mapM (fun r => get_probs (log_cum_odds col) (nth i r 0%R)) Z = Ok (map (fun r => pr (nth i r 0%R)) Z)).
      { rewrite <- mapM_pure. rewrite (mapM_map (fun r => get_probs _ _)), (mapM_map (fun r => Ok (pr _))). f_equal. apply map_ext. intros r. apply Pr. }
      rewrite Em. cbn [bind]. eexists. split; [reflexivity|]. unfold reported. cbn [r_rows]. split; [rewrite map_length; auto|].
      assert (Rk : forall x, In x col -> rank col x < List.length (nodup Qc_eq_dec col)).
      { intros x Hx. rewrite <- position_rank by auto. rewrite <- nodup_isort_length. apply position_lt. apply categories_In. auto. }
      assert (Ps : forall x z, In x col -> (0 < nth (place col x) (pr z) 0)%R).
      { intros x z Hx. rewrite place_rank. destruct (Pr z) as (_ & L & [Ds _]). rewrite Forall_forall in Ds. apply Ds. apply nth_In. rewrite L. auto. }
      split.
      + intros r m Irm. unfold shown. fold k. rewrite Ek. cbn [likelihood]. pose proof (in_combine_r _ _ _ _ Irm) as Im. apply in_map_iff in Im. destruct Im as (z & <- & _).
        apply Ps. apply in_col. apply (in_combine_l _ _ _ _ Irm).
      + unfold dist_loss. fold k. rewrite Ek. fold i. rewrite mapM_map, Od'.
        pose proof En as E. rewrite Dc in E. apply (f_equal (map (hd 0%Qc))) in E. rewrite !map_map in E. cbn [picks map hd] in E. fold i in E.
        rewrite (combine_ext (fun r => nth i r 0%Qc) (fun r => hd 0%Qc (enc t (nth i r 0%Qc)))
          (fun x z => do ps <- get_probs (log_cum_odds col) (nth i z 0%R); match nth_error ps (to_long x) with Some q => Ok (- ln q)%R | None => Err RuntimeError end) (rows X') (rows X) Z E).
        rewrite (map_ext_in _ (fun p => Ok (row_nll Ord col (nth i (fst p) 0%Qc) (pr (nth i (snd p) 0%R))))).
        * rewrite <- mapM_map, mapM_pure. cbn [bind]. rewrite rmean_average. do 2 f_equal.
          symmetry. unfold shown. fold k. rewrite Ek.
          apply (combine_ext_r (fun m => m) (fun z => pr (nth i z 0%R)) (fun r ps => row_nll Ord col (nth i r 0%Qc) ps)). rewrite map_id. auto.
        * intros [r z] Hp. cbn [fst snd]. assert (Hx : In (nth i r 0%Qc) col) by (apply in_col; apply (in_combine_l _ _ _ _ Hp)).
          destruct (Pr (nth i z 0%R)) as (-> & L & _). cbn [bind]. unfold enc. fold k. rewrite Ek. cbn [hd]. change (to_long (Q2Qc (inject_Z (Z.of_nat (position (dt_cats t) (nth i r 0%Qc)))))) with (natural (Q2Qc (inject_Z (Z.of_nat (position (dt_cats t) (nth i r 0%Qc)))))). rewrite nat_floor, Cs', position_rank by auto.
          rewrite (nth_error_nth' (pr (nth i z 0%R)) 0%R) by (rewrite L; auto). unfold row_nll. cbn [likelihood constant]. f_equal. rewrite Rminus_0_r. reflexivity.
    - (* Poiss *)
      destruct link_ok as (M & E & _ & F); [congruence|]. exists M. split; auto.
      apply (not_ord (fun x z => poisson_nll (nth i z 0%R) (realq x))); auto; [congruence| |apply Lr; congruence].
      intros x z Hx. rewrite Ek, (one_column ltac:(congruence)). unfold row_nll. cbn [pick map link likelihood constant hd].
      destruct (Su x Hx) as (n & ->). rewrite nat_floor. split.
      + apply Rdiv_lt_0_compat; [|apply INR_fact_lt_0]. apply Rmult_lt_0_compat; [apply exp_pos|apply pow_lt, exp_pos].
      + symmetry. rewrite <- poisson_pmf. f_equal. apply realq_qnat.
  Qed.
End Type_.
