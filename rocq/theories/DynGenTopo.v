(** * DynGenTopo: a topological order as an instance of what networkx promises.

    Only used for examples: the theorems hold for every function that finds such orders. *)
From Coq Require Import List Bool Arith Lia QArith Qcanon Permutation.
From Verif Require Import Base Digraph SmModel NotearsModel NotearsProofs TorchModel BbnProofs DynGenModel DynGenData.
Import ListNotations.
Local Open Scope list_scope.
Local Open Scope nat_scope.

Definition nmem (i : nat) (l : list nat) : bool := existsb (Nat.eqb i) l.
Lemma nmem_In i l : nmem i l = true <-> In i l.
Proof. unfold nmem. rewrite existsb_exists. split; [intros (x & H & E); apply Nat.eqb_eq in E; subst; auto|]. intros H. exists i. split; auto. apply Nat.eqb_refl. Qed.

(** The vertices that are not placed and whose parents are. *)
Definition ready (w : qmat) (d : nat) (placed : list nat) : list nat :=
  filter (fun j => negb (nmem j placed) && forallb (fun i => negb (qnz (w i j)) || nmem i placed) (seq 0 d)) (seq 0 d).
Fixpoint place (w : qmat) (d fuel : nat) (placed : list nat) : list nat :=
  match fuel with O => placed | S f => place w d f (placed ++ ready w d placed) end.
Definition order_of (w : qmat) (d : nat) : list nat := place w d d [].

Definition closed_prefix (w : qmat) (d : nat) (l : list nat) : Prop :=
  NoDup l /\ (forall i, In i l -> i < d) /\ forall l1 j l2, l = l1 ++ j :: l2 -> forall i, i < d -> w i j <> 0%Qc -> In i l1.

Lemma ready_In w d placed j : In j (ready w d placed) <-> j < d /\ ~ In j placed /\ forall i, i < d -> w i j <> 0%Qc -> In i placed.
Proof.
  unfold ready. rewrite filter_In, in_seq, andb_true_iff, negb_true_iff, forallb_forall. split.
  - intros (Hj & N & F). split; [lia|]. split; [intros C; apply nmem_In in C; congruence|]. intros i Hi W. assert (I : In i (seq 0 d)) by (apply in_seq; lia). specialize (F i I). apply orb_true_iff in F. destruct F as [F|F]; [apply negb_true_iff in F; apply qnz_iff in W; congruence|apply nmem_In; auto].
  - intros (Hj & N & F). split; [lia|]. split; [destruct (nmem j placed) eqn:E; auto; apply nmem_In in E; contradiction|]. intros i Hi. apply in_seq in Hi. destruct (qnz (w i j)) eqn:E; cbn; auto. apply nmem_In, F; [lia|]. apply qnz_iff. auto.
Qed.

Lemma closed_step w d l : closed_prefix w d l -> closed_prefix w d (l ++ ready w d l).
Proof.
  intros (ND & B & C). split; [|split].
  - apply NoDup_app_intro; auto; [apply NoDup_filter, seq_NoDup|]. intros x Hx H. apply ready_In in H. tauto.
  - intros i H. apply in_app_or in H. destruct H as [H|H]; auto. apply ready_In in H. tauto.
  - intros l1 j l2 E i Hi W. assert (Hs : exists m, (l = l1 ++ j :: m) \/ (exists m', l1 = l ++ m' /\ ready w d l = m' ++ j :: m)).
    { clear - E. revert E. generalize (ready w d l) as R0. intros R0. revert l1. induction l as [|x l IH]; intros l1 E.
      - cbn in E. exists l2. right. exists l1. auto.
      - destruct l1 as [|y l1]; cbn in E; injection E as <- E.
        + exists l. auto.
        + destruct (IH l1 E) as (m & [->|(m' & -> & R)]); exists m; [left; auto|right; exists m'; auto]. }
    destruct Hs as (m & [El|(m' & -> & R)]); [eapply C; eauto|]. apply in_or_app. left. assert (I : In j (ready w d l)) by (rewrite R; apply in_or_app; cbn; auto). apply ready_In in I. apply I; auto.
Qed.

Lemma closed_length w d l : closed_prefix w d l -> List.length l <= d.
Proof.
  intros (ND & B & _). rewrite <- (seq_length d 0). apply NoDup_incl_length; auto. intros x Hx. apply in_seq. specialize (B x Hx). lia.
Qed.

Lemma min_rank (rk : nat -> nat) (P : nat -> bool) n : (exists j, j < n /\ P j = true) -> exists j, j < n /\ P j = true /\ forall i, i < n -> P i = true -> rk j <= rk i.
Proof.
  induction n as [|n IH]; intros (j & Hj & Pj); [lia|]. destruct (existsb P (seq 0 n)) eqn:E.
  - apply existsb_exists in E. destruct E as (x & Hx & Px). apply in_seq in Hx. destruct IH as (m & Hm & Pm & Min); [exists x; split; auto; lia|].
    destruct (P n) eqn:Pn; [destruct (le_lt_dec (rk m) (rk n))|].
    + exists m. split; [lia|]. split; auto. intros i Hi Pi. destruct (Nat.eq_dec i n) as [->|]; auto. apply Min; auto; lia.
    + exists n. split; [lia|]. split; auto. intros i Hi Pi. destruct (Nat.eq_dec i n) as [->|]; auto. specialize (Min i). assert (rk m <= rk i) by (apply Min; auto; lia). lia.
    + exists m. split; [lia|]. split; auto. intros i Hi Pi. destruct (Nat.eq_dec i n) as [->|]; [congruence|]. apply Min; auto; lia.
  - assert (H : forall i, i < n -> P i = false). { intros i Hi. destruct (P i) eqn:Pi; auto. assert (existsb P (seq 0 n) = true) by (apply existsb_exists; exists i; split; auto; apply in_seq; lia). congruence. }
    exists j. split; auto. split; auto. intros i Hi Pi. destruct (Nat.eq_dec i n) as [->|]; [|rewrite H in Pi by lia; discriminate]. destruct (Nat.eq_dec j n) as [->|]; auto. rewrite H in Pj by lia. discriminate.
Qed.

Lemma ready_some w d l rk : (forall i j, i < d -> j < d -> w i j <> 0%Qc -> rk i < rk j) -> closed_prefix w d l -> List.length l < d -> ready w d l <> [].
Proof.
  intros Hr C L. destruct (min_rank rk (fun j => negb (nmem j l)) d) as (j & Hj & Pj & Min).
  - destruct (existsb (fun j => negb (nmem j l)) (seq 0 d)) eqn:E.
    + apply existsb_exists in E. destruct E as (j & Hj & Pj). apply in_seq in Hj. exists j. split; auto. lia.
    + exfalso. assert (I : incl (seq 0 d) l). { intros x Hx. destruct (nmem x l) eqn:Ex; [apply nmem_In; auto|]. assert (existsb (fun j => negb (nmem j l)) (seq 0 d) = true) by (apply existsb_exists; exists x; rewrite Ex; auto). congruence. }
      apply NoDup_incl_length in I; [|apply seq_NoDup]. rewrite seq_length in I. lia.
  - intros Q. assert (I : In j (ready w d l)). { apply ready_In. split; auto. apply negb_true_iff in Pj. split; [intros X; apply nmem_In in X; congruence|]. intros i Hi W. destruct (nmem i l) eqn:Ei; [apply nmem_In; auto|]. exfalso. assert (rk j <= rk i) by (apply Min; auto; rewrite Ei; auto). specialize (Hr i j Hi Hj W). lia. }
    rewrite Q in I. contradiction.
Qed.

Lemma place_closed w d rk : (forall i j, i < d -> j < d -> w i j <> 0%Qc -> rk i < rk j) -> forall f l, closed_prefix w d l -> closed_prefix w d (place w d f l) /\ (d <= List.length l + f -> List.length (place w d f l) = d).
Proof.
  intros Hr. induction f as [|f IH]; intros l C; cbn [place].
  - split; auto. intros L. pose proof (closed_length w d l C). lia.
  - destruct (IH _ (closed_step w d l C)) as [C' L']. split; auto. intros L. apply L'. rewrite app_length. pose proof (closed_length _ _ _ C).
    destruct (le_lt_dec d (List.length l)); [lia|]. pose proof (ready_some w d l rk Hr C l0). destruct (ready w d l); [congruence|cbn; lia].
Qed.

Lemma order_of_topo w d : acyclic (mat_edges d w) -> topo_order w d (order_of w d).
Proof.
  intros Ac. apply (acyclic_rank Nat.eqb Nat.eqb_spec) in Ac. destruct Ac as (rk & Hr).
  assert (Hr' : forall i j, i < d -> j < d -> w i j <> 0%Qc -> rk i < rk j). { intros i j Hi Hj W. apply Hr. unfold mat_edges. apply filter_In. split; [apply cells_In; auto|]. apply qnz_iff. auto. }
  destruct (place_closed w d rk Hr' d []) as [(ND & B & C) L].
  - split; [constructor|]. split; [intros i []|]. intros l1 j l2 E. destruct l1; discriminate.
  - split; auto. apply NoDup_Permutation_bis; auto.
    + rewrite seq_length. specialize (L ltac:(cbn; lia)). unfold order_of. lia.
    + intros x Hx. apply in_seq. specialize (B x Hx). lia.
Qed.
