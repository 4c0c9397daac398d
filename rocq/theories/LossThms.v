(** * LossThms: the losses of prepared data. *)
From Coq Require Import List Bool Arith ZArith Lia String QArith Qcanon Qround Permutation Reals Lra.
From Verif Require Import Base Names Digraph SmModel QcX NetModel NotearsModel NotearsProofs AcycModel AcycLink
  TorchModel TorchSpec TorchProofs TorchTotal SklModel OrdProofs SklPredict LossModel LossProofs LossSpec LossNll.
Import ListNotations.
Local Open Scope list_scope.
Local Open Scope nat_scope.

Section Prepared.
  Context (ks : list (nat * kind)) (X : data) (t : tabu Z) (dts : list dtype) (X' : data) (t' : tabu Z).
  Context (Rc : rect X) (N : NoDup (map fst ks)) (B : forall i, In i (map fst ks) -> i < width X) (E : prepare ks X t = Ok (dts, X', t')).

  Lemma dts_idx : map dt_idx dts = map fst ks.
  Proof. destruct (prepare_layout ks X t dts X' t' Rc N B E) as (_ & K & _). rewrite <- K, map_map. apply map_ext. auto. Qed.
  Lemma dts_kind dt : In dt dts -> In (dt_idx dt, dt_kind dt) ks.
  Proof. intros I. destruct (prepare_layout ks X t dts X' t' Rc N B E) as (_ & K & _). rewrite <- K. apply in_map_iff. eauto. Qed.
  Lemma prepared_rect : rect X' /\ List.length (rows X') = List.length (rows X) /\ width X <= width X'.
  Proof.
    destruct (prepare_layout ks X t dts X' t' Rc N B E) as (_ & _ & _ & W & R' & L). repeat split; auto. rewrite W. apply total_ge.
  Qed.
  Lemma dims_keys : map fst (dims_of X ks) = map fst ks.
  Proof. unfold dims_of. rewrite map_map. apply map_ext. auto. Qed.

  Lemma in_layout dt : In dt dts -> In (dt_idx dt, dt_columns dt) (layout (width X) (dims_of X ks)).
  Proof. intros I. destruct (prepare_layout ks X t dts X' t' Rc N B E) as (L & _). rewrite <- L. apply in_map_iff. eauto. Qed.

  Lemma columns_bound dt j : In dt dts -> In j (dt_columns dt) -> j < width X'.
  Proof.
    intros I Hj. destruct (prepare_layout ks X t dts X' t' Rc N B E) as (_ & _ & _ & W & _). rewrite W.
    destruct (layout_ge _ _ _ _ _ (in_layout dt I) Hj) as [->|H]; [|lia]. pose proof (total_ge (dims_of X ks) (width X)).
    assert (dt_idx dt < width X); [|lia]. apply B. rewrite <- dts_idx. apply in_map. auto.
  Qed.
  Lemma columns_head dt : In dt dts -> exists ex, dt_columns dt = dt_idx dt :: ex.
  Proof.
    intros I. pose proof (in_layout dt I) as P. revert P. generalize (width X). generalize (dims_of X ks).
    intros vs. induction vs as [|[b n] vs IH]; intros w P; cbn in P; [tauto|]. destruct P as [[= E1 E2]|P]; [rewrite <- E2, <- E1; eauto|eauto].
  Qed.
  Lemma columns_nodup dt : In dt dts -> NoDup (dt_columns dt).
  Proof. intros I. apply (layout_nodup (dims_of X ks) (width X) (dt_idx dt)); [|apply in_layout; auto]. rewrite dims_keys. auto. Qed.
  Lemma columns_disjoint dt dt' x : In dt dts -> In dt' dts -> In x (dt_columns dt) -> In x (dt_columns dt') -> dt = dt'.
  Proof.
    intros I I' H H'. assert (Q : dt_idx dt = dt_idx dt').
    { apply (layout_disjoint (dims_of X ks) (width X) _ _ (dt_columns dt) (dt_columns dt') x); auto; try (apply in_layout; auto); rewrite dims_keys; auto. }
    pose proof N as N'. rewrite <- dts_idx in N'. clear E. clear - N' Q I I'. revert N' I I'. induction dts as [|a l IH]; cbn; intros N0 I I'; [tauto|].
    apply NoDup_cons_iff in N0. destruct N0 as [Na N0]. destruct I as [->|I], I' as [->|I']; auto; exfalso; apply Na; [rewrite Q|rewrite <- Q]; apply in_map; auto.
  Qed.
  Lemma good dt : In dt dts -> good_dt dt.
  Proof.
    intros I. destruct (prepare_layout ks X t dts X' t' Rc N B E) as (_ & _ & G & _). unfold good_dt. destruct (dt_kind dt) eqn:Ek; auto.
    rewrite (G dt I Ek). destruct (columns_head dt I) as (ex & Ex). exists ex. split; auto. apply columns_nodup. auto.
  Qed.
  Lemma cats_of dt : In dt dts -> dt_kind dt = Cat \/ dt_kind dt = Ord -> dt_cats dt = categories (column (dt_idx dt) X).
  Proof. intros I. destruct (prepare_encoders ks X t dts X' t' Rc N B E) as (F & _). rewrite Forall_forall in F. apply F. auto. Qed.

  Lemma group_length dt : In dt dts -> dt_kind dt = Cat -> List.length (rows X) <> 0 -> List.length (dt_group dt) = List.length (dt_cats dt).
  Proof.
    intros I K Nr. destruct (prepare_layout ks X t dts X' t' Rc N B E) as (_ & _ & G & _). rewrite (G dt I K).
    pose proof (prepare_rows ks X t dts X' t' Rc N B E dt I) as P. destruct (rows X) as [|r rs] eqn:Er; [cbn in Nr; lia|].
    destruct (rows X') as [|r' rs'] eqn:Er'; [discriminate|]. cbn [map] in P. injection P as P _. apply (f_equal (@List.length _)) in P.
    unfold picks in P. rewrite map_length in P. rewrite P. unfold enc. rewrite K. apply one_hot_length.
  Qed.

  Lemma cats_length col : List.length (categories col) = List.length (nodup Qc_eq_dec col).
  Proof.
    apply Nat.le_antisymm; (apply NoDup_incl_length; [|intros x Hx]).
    - apply categories_NoDup.
    - apply nodup_In. apply categories_In. auto.
    - apply NoDup_nodup.
    - apply categories_In. apply nodup_In in Hx. auto.
  Qed.
  Lemma single_raises i : In (i, Ord) ks -> List.length (nodup Qc_eq_dec (column i X)) < 2 -> loss_raises dts = true.
  Proof.
    intros I L. destruct (prepare_layout ks X t dts X' t' Rc N B E) as (_ & K & _). rewrite <- K in I. apply in_map_iff in I. destruct I as (dt & [= E1 E2] & I).
    unfold loss_raises. apply existsb_exists. exists dt. split; auto. rewrite E2. apply Nat.ltb_lt. rewrite (cats_of dt I (or_intror E2)), cats_length, E1. auto.
  Qed.

  Lemma kind_at i k : In (i, k) ks -> exists dt, In dt dts /\ dt_idx dt = i /\ dt_kind dt = k.
  Proof.
    intros I. destruct (prepare_layout ks X t dts X' t' Rc N B E) as (_ & K & _). rewrite <- K in I. apply in_map_iff in I. destruct I as (dt & [= E1 E2] & I). eauto.
  Qed.
  Lemma two_fine : (forall i, In (i, Ord) ks -> 2 <= List.length (nodup Qc_eq_dec (column i X))) -> loss_raises dts = false.
  Proof.
    intros H. destruct (loss_raises dts) eqn:L; auto. exfalso. unfold loss_raises in L. apply existsb_exists in L. destruct L as (dt & I & L).
    destruct (dt_kind dt) eqn:K; try discriminate. apply Nat.ltb_lt in L. rewrite (cats_of dt I (or_intror K)), cats_length in L.
    specialize (H (dt_idx dt)). rewrite <- K in H. specialize (H (dts_kind dt I)). lia.
  Qed.

  Context (odds : nat -> list R) (Z : list (list R)).
  Context (Od : forall dt, In dt dts -> dt_kind dt = Ord -> odds (dt_idx dt) = log_cum_odds (column (dt_idx dt) X)).
  Context (Wz : Forall (fun z => List.length z = width X') Z) (Lz : List.length Z = List.length (rows X)) (Nr : rows X <> []).

  Lemma prepared_nll dt : In dt dts -> suitable (dt_kind dt) (column (dt_idx dt) X) -> exists M, inverse_link odds dt (mkRm (width X') Z) = Ok M /\ reported odds dt X X' Z M.
  Proof.
    intros I Su. apply type_nll; auto.
    - apply Forall_forall. intros j Hj. apply (columns_bound dt); auto.
    - apply good. auto.
    - apply cats_of. auto.
    - apply (prepare_rows ks X t dts X' t' Rc N B E dt I).
    - intros K. apply group_length; auto. destruct (rows X); [congruence|discriminate].
  Qed.

  (** The mean negative log-likelihood of one type. *)
  Definition type_nll_value (dt : dtype) (M : rmat) : R :=
    average (map (fun p => row_nll (dt_kind dt) (column (dt_idx dt) X) (nth (dt_idx dt) (fst p) 0%Qc) (shown dt (snd p))) (combine (rows X) (r_rows M))).

  Lemma total_nll : (forall i k, In (i, k) ks -> suitable k (column i X)) ->
    exists Ms, Forall2 (fun dt M => inverse_link odds dt (mkRm (width X') Z) = Ok M /\ reported odds dt X X' Z M) dts Ms /\
      total_loss odds dts X' Z = Ok (fold_right Rplus 0%R (map (fun dM => type_nll_value (fst dM) (snd dM)) (combine dts Ms))).
  Proof.
    intros Su. assert (H : forall dt, In dt dts -> exists M, inverse_link odds dt (mkRm (width X') Z) = Ok M /\ reported odds dt X X' Z M).
    { intros dt I. apply prepared_nll; auto. apply Su. apply dts_kind. auto. }
    unfold total_loss. clear - H. revert H. induction dts as [|dt l IH]; intros H.
    - exists []. split; [constructor|]. reflexivity.
    - destruct (H dt (or_introl eq_refl)) as (M & E & Re). destruct IH as (Ms & F & E2); [intros; apply H; right; auto|].
      exists (M :: Ms). split; [constructor; auto|]. cbn [mapM]. destruct Re as (_ & _ & D). rewrite D. cbn [bind].
      destruct (mapM (fun t => dist_loss odds t X' Z) l) as [ls|e] eqn:Em; cbn [bind] in E2 |- *; [|discriminate].
      injection E2 as E2. cbn [combine map fold_right fst snd]. rewrite <- E2. reflexivity.
  Qed.

  (** An ordinal column with one category *)
  Lemma total_raises : loss_raises dts = true -> exists e, total_loss odds dts X' Z = Err e.
  Proof.
    intros H. unfold loss_raises in H. apply existsb_exists in H. destruct H as (dt & I & H). destruct (dt_kind dt) eqn:K; try discriminate.
    apply Nat.ltb_lt in H. rewrite (cats_of dt I (or_intror K)) in H.
    assert (O : odds (dt_idx dt) = []).
    { rewrite (Od dt I K). unfold log_cum_odds, cum_class_probs. destruct (categories (column (dt_idx dt) X)) as [|c [|c' l]]; auto. cbn in H. lia. }
    assert (D : exists e, dist_loss odds dt X' Z = Err e).
    { destruct prepared_rect as (_ & L & _). unfold dist_loss. rewrite K, O. destruct (rows X') as [|r rs]; [destruct (rows X); [congruence|discriminate]|].
      destruct Z as [|z zs]; [cbn in Lz; destruct (rows X); [congruence|discriminate]|]. cbn. eauto. }
    unfold total_loss. clear - I D. revert I. induction dts as [|a l IH]; intros I; [destruct I|]. cbn [mapM]. destruct I as [->|I].
    - destruct D as (e & ->). exists e. reflexivity.
    - destruct (IH I) as (e & E). destruct (dist_loss odds a X' Z) as [x|e']; [|exists e'; reflexivity]. cbn [bind].
      destruct (mapM _ l) as [ls|e']; cbn [bind] in *; [discriminate|]. exists e'. reflexivity.
  Qed.
End Prepared.
