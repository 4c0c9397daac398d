(** * SklPredict: what reconstruction and prediction return. *)
From Coq Require Import List Bool Arith ZArith Lia String QArith Qcanon Permutation Reals Lra.
From Verif Require Import Base Names Digraph SmModel SmProofs QcX NetModel NotearsModel NotearsProofs NotearsThms AcycLink
  TorchModel TorchSpec TorchProofs TorchThms TorchGraph TorchResult TorchPandas TorchFrame TorchTotal TorchFinal SklModel SklCoef SklFit SklThms OrdProofs.
Import ListNotations.
Local Open Scope string_scope.
Local Open Scope list_scope.
Local Open Scope nat_scope.

Local Notation lspec := label_eqb_spec.

(** ** Inverse links *)
Definition pick (is : list nat) (r : list R) : list R := map (fun j => nth j r 0%R) is.

Definition link (k : kind) (outs : list R) : list R :=
  match k with Bin => map sigmoid outs | Cat => softmax outs | Poiss => map exp outs | _ => outs end.

Definition wf_m (M : rmat) : Prop := Forall (fun r => List.length r = r_width M) (r_rows M).

Lemma softmax_length l : List.length (softmax l) = List.length l.
Proof. unfold softmax. apply map_length. Qed.

Lemma set_many_spec is : forall xs r, NoDup is -> List.length xs = List.length is -> Forall (fun i => i < List.length r) is ->
  List.length (set_many r is xs) = List.length r /\ (forall j, ~ In j is -> nth j (set_many r is xs) 0%R = nth j r 0%R) /\ pick is (set_many r is xs) = xs.
Proof.
  unfold set_many, pick. induction is as [|i is IH]; intros [|x xs] r N L B; cbn in L; try lia; cbn [combine fold_left map]; auto.
  apply NoDup_cons_iff in N. destruct N as [Ni N]. inversion B as [|? ? Bi B']; subst. cbn [fst snd].
  assert (Ls : List.length (set_nth i x r) = List.length r) by (apply set_nth_length; auto).
  destruct (IH xs (set_nth i x r)) as (H1 & H2 & H3); auto; [rewrite Ls; auto|]. split; [congruence|]. split.
  - intros j Hj. rewrite H2 by (intros Q; apply Hj; right; auto). apply set_nth_other; auto. intros ->. apply Hj. left. auto.
  - f_equal; auto. rewrite H2 by auto. apply set_nth_same. auto.
Qed.

Definition linked (t : dtype) (r r' : list R) : Prop :=
  (forall j, ~ In j (dt_columns t) -> nth j r' 0%R = nth j r 0%R) /\ pick (dt_columns t) r' = link (dt_kind t) (pick (dt_columns t) r).

Lemma Forall2_map_r {A B} (P : A -> B -> Prop) (f : A -> B) l : (forall x, In x l -> P x (f x)) -> Forall2 P l (map f l).
Proof. induction l; cbn; intros H; constructor; auto. Qed.
Lemma Forall2_same {A} (P : A -> A -> Prop) l : (forall x, In x l -> P x x) -> Forall2 P l l.
Proof. intros H. rewrite <- (map_id l) at 2. apply Forall2_map_r. auto. Qed.

Lemma link_step odds t M M' : dt_kind t <> Ord -> good_dt t -> wf_m M -> inverse_link odds t M = Ok M' ->
  wf_m M' /\ r_width M' = r_width M /\ Forall2 (linked t) (r_rows M) (r_rows M').
Proof.
  intros K G W E. unfold inverse_link in E. unfold wf_m in W. rewrite Forall_forall in W. unfold linked, dt_columns, good_dt in *. destruct (dt_kind t) eqn:Ek; try congruence.
  - destruct (Nat.ltb_spec (dt_idx t) (r_width M)) as [L|]; [|discriminate]. injection E as <-. cbn [r_width r_rows]. split; [|split; auto].
    + apply Forall_map, Forall_forall. intros r Hr. cbn [r_width]. rewrite set_nth_length; rewrite (W r Hr); auto.
    + apply Forall2_map_r. intros r Hr. split; [intros j Hj; apply set_nth_other; [rewrite (W r Hr); auto|intros ->; apply Hj; left; auto]|].
      cbn [pick map link]. rewrite set_nth_same by (rewrite (W r Hr); auto). auto.
  - destruct G as (ex & Eg & Ng). destruct (forallb (fun j => j <? r_width M) (dt_group t)) eqn:B; [|discriminate]. injection E as <-. cbn [r_width r_rows].
    assert (B' : forall r, In r (r_rows M) -> Forall (fun i => i < List.length r) (dt_group t)).
    { intros r Hr. rewrite (W r Hr). apply Forall_forall. rewrite forallb_forall in B. intros i Hi. apply Nat.ltb_lt. auto. }
    assert (Q : forall r, In r (r_rows M) -> List.length (softmax (pick (dt_group t) r)) = List.length (dt_group t)) by (intros; rewrite softmax_length; apply map_length).
    split; [|split; auto].
    + apply Forall_map, Forall_forall. intros r Hr. cbn [r_width]. destruct (set_many_spec (dt_group t) (softmax (pick (dt_group t) r)) r) as (H1 & _); auto. unfold pick in H1. rewrite H1. auto.
    + apply Forall2_map_r. intros r Hr. destruct (set_many_spec (dt_group t) (softmax (pick (dt_group t) r)) r) as (_ & H2 & H3); auto.
  - injection E as <-. split; [apply Forall_forall; auto|]. split; auto. apply Forall2_same. intros r Hr. split; auto.
  - destruct (Nat.ltb_spec (dt_idx t) (r_width M)) as [L|]; [|discriminate]. injection E as <-. cbn [r_width r_rows]. split; [|split; auto].
    + apply Forall_map, Forall_forall. intros r Hr. cbn [r_width]. rewrite set_nth_length; rewrite (W r Hr); auto.
    + apply Forall2_map_r. intros r Hr. split; [intros j Hj; apply set_nth_other; [rewrite (W r Hr); auto|intros ->; apply Hj; left; auto]|].
      cbn [pick map link]. rewrite set_nth_same by (rewrite (W r Hr); auto). auto.
Qed.

Definition all_linked (ts : list dtype) (r r' : list R) : Prop :=
  (forall j, (forall t, In t ts -> ~ In j (dt_columns t)) -> nth j r' 0%R = nth j r 0%R) /\
  (forall t, In t ts -> pick (dt_columns t) r' = link (dt_kind t) (pick (dt_columns t) r)).

Lemma pick_ext is r s : (forall j, In j is -> nth j r 0%R = nth j s 0%R) -> pick is r = pick is s.
Proof. intros H. apply map_ext_in. auto. Qed.

Lemma Forall2_trans' {A} (P Q S : A -> A -> Prop) l m : (forall x y z, P x y -> Q y z -> S x z) -> Forall2 P l m -> forall k, Forall2 Q m k -> Forall2 S l k.
Proof. intros H. induction 1; intros k H2; inversion H2; subst; constructor; eauto. Qed.

Lemma links odds ts : forall M M', (forall t, In t ts -> dt_kind t <> Ord) -> Forall good_dt ts -> NoDup (map dt_idx ts) ->
  (forall t t' x, In t ts -> In t' ts -> In x (dt_columns t) -> In x (dt_columns t') -> dt_idx t = dt_idx t') ->
  wf_m M -> foldM (fun M t => inverse_link odds t M) ts M = Ok M' -> wf_m M' /\ r_width M' = r_width M /\ Forall2 (all_linked ts) (r_rows M) (r_rows M').
Proof.
  induction ts as [|t ts IH]; intros M M' K G N D W E; cbn [foldM] in E.
  - injection E as <-. split; auto. split; auto. apply Forall2_same. intros r _. split; auto. intros t [].
  - apply bind_ok in E. destruct E as (M1 & E1 & E). inversion G as [|? ? Gt G']; subst. cbn in N. apply NoDup_cons_iff in N. destruct N as [Nt N].
    destruct (link_step odds t M M1) as (W1 & Wi1 & F1); auto; [apply K; left; auto|].
    destruct (IH M1 M') as (W2 & Wi2 & F2); auto; [intros; apply K; right; auto|intros; eapply D; eauto; right; auto|].
    split; auto. split; [congruence|]. eapply Forall2_trans'; [|exact F1|exact F2]. intros r s u [A1 A2] [B1 B2].
    assert (Dt : forall j t', In j (dt_columns t) -> In t' ts -> ~ In j (dt_columns t')).
    { intros j t' Hj Ht' Hj'. apply Nt. rewrite (D t t' j); auto; [apply in_map; auto|left; auto|right; auto]. }
    split.
    + intros j Hj. rewrite B1 by (intros; apply Hj; right; auto). apply A1. apply Hj. left. auto.
    + intros t' [<-|Ht'].
      * rewrite <- A2. apply pick_ext. intros j Hj. apply B1. intros t' Ht'. eauto.
      * rewrite B2 by auto. f_equal. apply pick_ext. intros j Hj. apply A1. intros Q. eapply Dt; eauto.
Qed.

(** ** Probabilities *)
Lemma rsum_map_div l c : rsum (map (fun x => (exp x / c)%R) l) = (rsum (map exp l) / c)%R.
Proof. unfold rsum, Rdiv. induction l as [|x l IH]; cbn; [ring|]. rewrite IH. ring. Qed.
Lemma rsum_exp_pos l : l <> [] -> (0 < rsum (map exp l))%R.
Proof.
  intros N. assert (G : forall l, (0 <= rsum (map exp l))%R). { unfold rsum. induction l0; cbn; [lra|]. pose proof (exp_pos a). lra. }
  destruct l as [|x l]; [congruence|]. unfold rsum. cbn. pose proof (exp_pos x). specialize (G l). unfold rsum in G. lra.
Qed.
Lemma softmax_distribution l : l <> [] -> distribution (softmax l).
Proof.
  intros N. pose proof (rsum_exp_pos l N) as P. split.
  - apply Forall_map, Forall_forall. intros x _. apply Rdiv_lt_0_compat; auto. apply exp_pos.
  - unfold softmax. rewrite rsum_map_div. field. lra.
Qed.
Lemma sigmoid_bounds x : (0 < sigmoid x < 1)%R.
Proof. unfold sigmoid. pose proof (exp_pos (- x)). split; [apply Rinv_0_lt_compat; lra|]. rewrite <- Rinv_1. apply Rinv_lt_contravar; lra. Qed.
Lemma sigmoid_distribution x : distribution [(1 - sigmoid x)%R; sigmoid x].
Proof. pose proof (sigmoid_bounds x). split; [repeat constructor; lra|]. unfold rsum. cbn. lra. Qed.

(** ** Encoding new data *)
Definition transform (X : data) (t : dtype) : res data :=
  match dt_kind t with Cat | Ord | Poiss => if dt_idx t <? width X then preprocess t X else Err IndexError | _ => Ok X end.

(** The values a fitted type can encode. *)
Definition accepts (t : dtype) (col : list Qc) : Prop :=
  match dt_kind t with
  | Cat | Ord => forall x, In x col -> In x (dt_cats t)
  | Poiss => forall x, In x col -> (0 <= x)%Qc
  | _ => True
  end.
Definition extra_cols (t : dtype) : nat := match dt_kind t with Cat => List.length (dt_cats t) - 1 | _ => 0 end.

Lemma known_iff cs l : known cs l = true <-> forall x, In x l -> In x cs.
Proof.
  unfold known. rewrite forallb_forall. split; intros H x Hx.
  - specialize (H x Hx). apply existsb_exists in H. destruct H as (y & Hy & E). apply Qc_eq_bool_correct in E. subst. auto.
  - apply existsb_exists. exists x. split; auto. unfold Qc_eq_bool. destruct (Qc_eq_dec x x); congruence.
Qed.

Lemma transform_ok t X : rect X -> dt_idx t < width X -> accepts t (column (dt_idx t) X) ->
  exists X', transform X t = Ok X' /\ rect X' /\ width X' = width X + extra_cols t /\ List.length (rows X') = List.length (rows X) /\
    forall j, j < width X -> j <> dt_idx t -> column j X' = column j X.
Proof.
  intros R Hi A. unfold transform, preprocess, extra_cols, accepts in *. pose proof Hi as Hi'. apply Nat.ltb_lt in Hi'. rewrite Hi'.
  assert (R' : forall r, In r (rows X) -> List.length r = width X) by (apply Forall_forall; exact R).
  destruct (dt_kind t).
  - exists X. repeat split; auto.
  - apply known_iff in A. rewrite A. eexists. split; [reflexivity|]. cbn [width rows]. split; [|split; [auto|split; [apply map_length|]]].
    + unfold rect. cbn [width rows]. apply Forall_map, Forall_forall. intros r Hr. unfold expand_row, one_hot. rewrite app_length, set_nth_length by (rewrite R'; auto).
      rewrite R' by auto. f_equal. destruct (dt_cats t); cbn; auto. rewrite map_length. lia.
    + intros j Hj Nj. unfold column. cbn [rows]. rewrite map_map. apply map_ext_in. intros r Hr. unfold expand_row.
      rewrite app_nth1 by (rewrite set_nth_length; rewrite R'; auto). apply set_nth_other; auto. rewrite R'; auto.
  - exists X. repeat split; auto.
  - apply known_iff in A. rewrite A. eexists. split; [reflexivity|]. cbn [width rows]. split; [|split; [lia|split; [apply map_length|]]].
    + unfold rect. cbn [width rows]. apply Forall_map, Forall_forall. intros r Hr. rewrite set_nth_length; rewrite R'; auto.
    + intros j Hj Nj. unfold column. cbn [rows]. rewrite map_map. apply map_ext_in. intros r Hr. apply set_nth_other; auto. rewrite R'; auto.
  - apply existsb_negative in A. rewrite A. exists X. repeat split; auto.
Qed.

Lemma transforms_ok ts : forall X, rect X -> NoDup (map dt_idx ts) -> (forall t, In t ts -> dt_idx t < width X) ->
  (forall t, In t ts -> accepts t (column (dt_idx t) X)) ->
  exists X', foldM transform ts X = Ok X' /\ rect X' /\ width X' = width X + list_sum (map extra_cols ts) /\ List.length (rows X') = List.length (rows X).
Proof.
  induction ts as [|t ts IH]; intros X R N B A; cbn [foldM map list_sum fold_right].
  - exists X. repeat split; auto.
  - cbn in N. apply NoDup_cons_iff in N. destruct N as [Nt N]. destruct (transform_ok t X) as (X1 & E1 & R1 & W1 & L1 & C1); [auto|apply B; left; auto|apply A; left; auto|].
    rewrite E1. cbn [bind]. destruct (IH X1) as (X2 & E2 & R2 & W2 & L2); auto.
    + intros u Hu. rewrite W1. pose proof (B u (or_intror Hu)). lia.
    + intros u Hu. rewrite C1; [apply A; right; auto|apply B; right; auto|]. intros Q. apply Nt. rewrite <- Q. apply in_map. auto.
    + exists X2. split; auto. split; auto. split; [|congruence]. rewrite W2, W1. fold (list_sum (map extra_cols ts)). lia.
Qed.

Lemma prepare_encoders ks : forall X t dts X' t', rect X -> NoDup (map fst ks) -> (forall i, In i (map fst ks) -> i < width X) -> prepare ks X t = Ok (dts, X', t') ->
  Forall (fun dt => dt_kind dt = Cat \/ dt_kind dt = Ord -> dt_cats dt = categories (column (dt_idx dt) X)) dts /\ width X' = width X + list_sum (map extra_cols dts).
Proof.
  induction ks as [|[i k] ks IH]; intros X t dts X' t' R N B E; cbn [prepare] in E.
  - injection E as <- <- <-. split; [constructor|cbn; lia].
  - apply bind_ok in E. destruct E as ([dt X1] & E1 & E). apply bind_ok in E. destruct E as ([[dts1 X2] t2] & E2 & E). cbn [fst snd] in *. injection E as <- <- <-.
    cbn in N. apply NoDup_cons_iff in N. destruct N as [Ni N]. pose proof (B i (or_introl eq_refl)) as Bi.
    destruct (preprocess_fit_spec k i X dt X1 R Bi E1) as (Ei & Ek & R1 & W1 & C1 & G1 & O1).
    assert (Bj : forall j, In j (map fst ks) -> j < width X1) by (intros j Hj; rewrite W1; pose proof (B j (or_intror Hj)); lia).
    destruct (IH X1 _ _ _ _ R1 N Bj E2) as [F W].
    destruct (prepare_layout ks _ _ _ _ _ R1 N Bj E2) as (_ & K & _).
    assert (I : map dt_idx dts1 = map fst ks).
    { transitivity (map fst (map (fun dt => (dt_idx dt, dt_kind dt)) dts1)); [rewrite map_map; apply map_ext; auto|rewrite K; auto]. }
    split.
    + constructor.
      * rewrite Ei, Ek. clear - E1. intros [->| ->]; cbn in E1; injection E1 as <- _; auto.
      * rewrite Forall_forall in *. intros u Hu Ku. rewrite (F u Hu Ku). f_equal. apply O1; [|intros Q; apply Ni; rewrite <- Q, <- I; apply in_map; auto].
        apply B. right. rewrite <- I. apply in_map. auto.
    + cbn [map list_sum fold_right]. fold (list_sum (map extra_cols dts1)). rewrite W, W1. unfold extra_cols at 2. rewrite Ek. clear - E1.
      destruct k; cbn [n_columns]; try lia. cbn in E1. injection E1 as <- _. cbn [dt_cats]. rewrite nodup_isort_length. lia.
Qed.
