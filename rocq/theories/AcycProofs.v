(** * AcycProofs: powers of non-negative matrices, walks and cycles. *)
From Coq Require Import List Arith Lia Reals Lra Relations Permutation.
From Verif Require Import AcycModel.
Import ListNotations.
Local Open Scope R_scope.

(** ** Sums *)
Lemma lsum_ext {A} (f g : A -> R) l : (forall x, In x l -> f x = g x) -> lsum f l = lsum g l.
Proof. induction l; intros H; cbn; auto. rewrite H, IHl; auto; [intros; apply H; right; auto|left; auto]. Qed.
Lemma lsum_le {A} (f g : A -> R) l : (forall x, In x l -> f x <= g x) -> lsum f l <= lsum g l.
Proof. induction l; intros H; cbn; [lra|]. apply Rplus_le_compat; [apply H; left; auto|]. apply IHl. intros; apply H; right; auto. Qed.
Lemma lsum_nonneg {A} (f : A -> R) l : (forall x, In x l -> 0 <= f x) -> 0 <= lsum f l.
Proof. induction l; intros H; cbn; [lra|]. apply Rplus_le_le_0_compat; [apply H; left; auto|]. apply IHl. intros; apply H; right; auto. Qed.
Lemma lsum_zero {A} (f : A -> R) l : (forall x, In x l -> f x = 0) -> lsum f l = 0.
Proof. induction l; intros H; cbn; auto. rewrite H, IHl; [lra| |left; auto]. intros; apply H; right; auto. Qed.
Lemma lsum_plus {A} (f g : A -> R) l : lsum (fun x => f x + g x) l = lsum f l + lsum g l.
Proof. induction l; cbn; [lra|]. rewrite IHl. lra. Qed.
Lemma lsum_scal {A} c (f : A -> R) l : lsum (fun x => c * f x) l = c * lsum f l.
Proof. induction l; cbn; [lra|]. rewrite IHl. lra. Qed.
Lemma lsum_const {A} c (l : list A) : lsum (fun _ => c) l = INR (length l) * c.
Proof. induction l; cbn [lsum length]; [cbn; lra|]. rewrite IHl, S_INR. lra. Qed.
Lemma lsum_app {A} (f : A -> R) l l' : lsum f (l ++ l') = lsum f l + lsum f l'.
Proof. induction l; cbn; [lra|]. rewrite IHl. lra. Qed.
Lemma lsum_perm {A} (f : A -> R) l l' : Permutation l l' -> lsum f l = lsum f l'.
Proof. induction 1; cbn; lra. Qed.
Lemma lsum_swap {A B} (f : A -> B -> R) l l' : lsum (fun x => lsum (fun y => f x y) l') l = lsum (fun y => lsum (fun x => f x y) l) l'.
Proof.
  induction l; cbn; [symmetry; apply lsum_zero; auto|]. rewrite IHl. symmetry. apply (lsum_plus (fun y => f a y)).
Qed.
Lemma lsum_member {A} (f : A -> R) l x : (forall y, In y l -> 0 <= f y) -> In x l -> f x <= lsum f l.
Proof.
  intros H I. apply in_split in I. destruct I as (l1 & l2 & ->). rewrite lsum_app. cbn.
  assert (0 <= lsum f l1) by (apply lsum_nonneg; intros; apply H; apply in_or_app; auto).
  assert (0 <= lsum f l2) by (apply lsum_nonneg; intros; apply H; apply in_or_app; right; right; auto). lra.
Qed.
Lemma lsum_incl (f : nat -> R) l l' : NoDup l -> incl l l' -> (forall y, In y l' -> 0 <= f y) -> lsum f l <= lsum f l'.
Proof.
  revert l'. induction l as [|a l IH]; intros l' N I H; cbn; [apply lsum_nonneg; auto|].
  apply NoDup_cons_iff in N. destruct N as [Na N].
  destruct (in_split a l' (I a (or_introl eq_refl))) as (l1 & l2 & ->).
  rewrite <- (lsum_perm f _ _ (Permutation_middle l1 l2 a)). cbn.
  apply Rplus_le_compat_l. apply IH; auto.
  - intros x Hx. assert (X : In x (l1 ++ a :: l2)) by (apply I; right; auto). rewrite in_app_iff in *. destruct X as [X|[X|X]]; auto. subst. tauto.
  - intros y Hy. apply H. rewrite in_app_iff in *. destruct Hy; auto. right; right; auto.
Qed.
Lemma lsum_pos_ex {A} (f : A -> R) l : (forall x, In x l -> 0 <= f x) -> lsum f l <> 0 -> exists x, In x l /\ 0 < f x.
Proof.
  induction l; cbn; intros H N; [lra|]. destruct (Rle_lt_dec (f a) 0) as [Hle|Hlt]; [|exists a; auto].
  destruct IHl as (x & I & P); eauto. assert (0 <= f a) by auto. lra.
Qed.

Lemma in_seq0 d i : In i (seq 0 d) <-> (i < d)%nat.
Proof. rewrite in_seq. lia. Qed.

Lemma rsum_delta d i (f : nat -> R) : (i < d)%nat -> rsum d (fun k => mid i k * f k) = f i.
Proof.
  intros H. unfold rsum. apply in_seq0 in H. pose proof (seq_NoDup d 0) as N. induction (seq 0 d) as [|a l IH]; [destruct H|]. cbn.
  apply NoDup_cons_iff in N. destruct N as [Na N]. unfold mid in *. destruct (Nat.eqb_spec i a) as [->|D].
  - rewrite lsum_zero; [lra|]. intros x Hx. destruct (Nat.eqb_spec a x); [congruence|lra].
  - destruct H as [->|H]; [congruence|]. rewrite IH; auto. lra.
Qed.

(** ** Powers *)
Definition nonneg_mat (d : nat) (A : rmat) : Prop := forall i j, (i < d)%nat -> (j < d)%nat -> 0 <= A i j.

Lemma mid_nonneg i j : 0 <= mid i j.
Proof. unfold mid. destruct (_ =? _)%nat; lra. Qed.

Lemma mmul_nonneg d A B i j : nonneg_mat d A -> nonneg_mat d B -> (i < d)%nat -> (j < d)%nat -> 0 <= mmul d A B i j.
Proof. intros HA HB Hi Hj. apply lsum_nonneg. intros k Hk. apply in_seq0 in Hk. apply Rmult_le_pos; auto. Qed.

Lemma mpow_nonneg d A n : nonneg_mat d A -> nonneg_mat d (mpow d A n).
Proof. intros H. induction n; intros i j Hi Hj; cbn; [apply mid_nonneg|]. apply mmul_nonneg; auto. Qed.

(** Products of powers *)
Lemma mmul_assoc d A B C i j : mmul d A (mmul d B C) i j = mmul d (mmul d A B) C i j.
Proof.
  unfold mmul, rsum.
  transitivity (lsum (fun k => lsum (fun l => A i k * B k l * C l j) (seq 0 d)) (seq 0 d)).
  - apply lsum_ext. intros k _. rewrite <- lsum_scal. apply lsum_ext. intros; lra.
  - rewrite lsum_swap. apply lsum_ext. intros l _. rewrite Rmult_comm, <- lsum_scal. apply lsum_ext. intros; lra.
Qed.

Lemma mmul_ext d A A' B B' i j : (forall k, (k < d)%nat -> A i k = A' i k) -> (forall k, (k < d)%nat -> B k j = B' k j) -> mmul d A B i j = mmul d A' B' i j.
Proof. intros HA HB. apply lsum_ext. intros k Hk. apply in_seq0 in Hk. rewrite HA, HB; auto. Qed.

Lemma mpow_add d A m n i j : (i < d)%nat -> mpow d A (m + n) i j = mmul d (mpow d A m) (mpow d A n) i j.
Proof.
  revert i j. induction m as [|m IH]; intros i j Hi.
  - cbn [Nat.add mpow]. unfold mmul. rewrite rsum_delta; auto.
  - cbn [Nat.add mpow]. rewrite <- mmul_assoc. apply mmul_ext; auto.
Qed.

Lemma mpow_1 d A i j : (i < d)%nat -> (j < d)%nat -> mpow d A 1 i j = A i j.
Proof.
  intros Hi Hj. cbn. unfold mmul, rsum.
  rewrite (lsum_ext _ (fun k => mid j k * A i k)); [apply (rsum_delta d j); auto|].
  intros k _. unfold mid. rewrite Nat.eqb_sym. lra.
Qed.

(** The weight of one way through [k] is part of the power. *)
Lemma mpow_via d A m n i k j : nonneg_mat d A -> (i < d)%nat -> (k < d)%nat -> (j < d)%nat ->
  mpow d A m i k * mpow d A n k j <= mpow d A (m + n) i j.
Proof.
  intros H Hi Hk Hj. rewrite mpow_add by auto. unfold mmul, rsum.
  apply (lsum_member (fun k => mpow d A m i k * mpow d A n k j)); [|apply in_seq0; auto].
  intros y Hy. apply in_seq0 in Hy. apply Rmult_le_pos; apply mpow_nonneg; auto.
Qed.

Lemma mpow_bound d A M n i j : nonneg_mat d A -> 0 <= M -> (forall i j, (i < d)%nat -> (j < d)%nat -> A i j <= M) ->
  (i < d)%nat -> (j < d)%nat -> mpow d A n i j <= (INR d * M) ^ n.
Proof.
  intros H HM B. revert i j. induction n as [|n IH]; intros i j Hi Hj; cbn [mpow pow].
  - unfold mid. destruct (_ =? _)%nat; lra.
  - unfold mmul, rsum. apply Rle_trans with (lsum (fun _ => M * (INR d * M) ^ n) (seq 0 d)).
    + apply lsum_le. intros k Hk. apply in_seq0 in Hk. apply Rmult_le_compat; auto. apply mpow_nonneg; auto.
    + rewrite lsum_const, seq_length. lra.
Qed.

(** ** Walks *)

(** [v 0], ..., [v n] is a walk *)
Definition walk (E : nat -> nat -> Prop) (n : nat) (v : nat -> nat) : Prop := forall m, (m < n)%nat -> E (v m) (v (S m)).

Lemma walk_app E n n' v v' : walk E n v -> walk E n' v' -> v n = v' 0%nat ->
  walk E (n + n') (fun m => if (m <=? n)%nat then v m else v' (m - n)%nat).
Proof.
  intros H H' J m Hm. destruct (Nat.leb_spec m n) as [A|A]; destruct (Nat.leb_spec (S m) n) as [B|B]; try lia.
  - apply H. lia.
  - assert (m = n) by lia. subst. rewrite J. replace (S n - n)%nat with 1%nat by lia. apply H'. lia.
  - replace (S m - n)%nat with (S (m - n)) by lia. apply H'. lia.
Qed.

Lemma clos_walk E i j : clos_trans nat E i j -> exists n v, (0 < n)%nat /\ walk E n v /\ v 0%nat = i /\ v n = j.
Proof.
  induction 1 as [x y H | x y z _ (n & v & Hn & W & A & B) _ (n' & v' & Hn' & W' & A' & B')].
  - exists 1%nat, (fun m => match m with O => x | _ => y end). split; [lia|]. split; auto. intros m Hm. destruct m; [auto|lia].
  - exists (n + n')%nat. eexists. split; [lia|]. split; [apply (walk_app E n n' v v'); auto; congruence|]. cbn. split; auto.
    destruct (Nat.leb_spec (n + n') n); [lia|]. replace (n + n' - n)%nat with n' by lia. auto.
Qed.

Lemma walk_clos E n v : (0 < n)%nat -> walk E n v -> clos_trans nat E (v 0%nat) (v n).
Proof.
  intros Hn W. induction n as [|n IH]; [lia|]. destruct n as [|n]; [apply t_step; apply W; lia|].
  eapply t_trans; [apply IH; [lia|]; intros m Hm; apply W; lia|]. apply t_step. apply W. lia.
Qed.

Lemma NoDup_app_one {A} (l : list A) x : NoDup l -> ~ In x l -> NoDup (l ++ [x]).
Proof. intros N H. apply (Permutation_NoDup (l := x :: l)); [apply Permutation_cons_append|constructor; auto]. Qed.

(** A shortest closed walk is a simple cycle. *)
Lemma simple_cycle E : forall n v, (0 < n)%nat -> walk E n v -> v 0%nat = v n ->
  exists L u, (0 < L)%nat /\ walk E L u /\ u 0%nat = u L /\ NoDup (map u (seq 0 L)).
Proof.
  induction n as [n IH] using (well_founded_induction lt_wf). intros v Hn W C.
  destruct (ListDec.NoDup_dec Nat.eq_dec (map v (seq 0 n))) as [N|N]; [exists n, v; auto|].
  assert (X : exists a b, (a < b < n)%nat /\ v a = v b).
  { assert (Dec : forall m, {exists a b, (a < b < m)%nat /\ v a = v b} + {NoDup (map v (seq 0 m))}).
    { induction m as [|m [D|D]]; [right; constructor| |].
      - left. destruct D as (a & b & Hab & E0). exists a, b. split; auto. lia.
      - destruct (in_dec Nat.eq_dec (v m) (map v (seq 0 m))) as [I|I].
        + left. apply in_map_iff in I. destruct I as (a & Ea & Ia). apply in_seq0 in Ia. exists a, m. split; auto; lia.
        + right. replace (S m) with (m + 1)%nat by lia. rewrite seq_app, map_app. cbn. apply NoDup_app_one; auto. }
    destruct (Dec n); auto. tauto. }
  destruct X as (a & b & Hab & E0). apply (IH (b - a)%nat ltac:(lia) (fun m => v (a + m)%nat)).
  - lia.
  - intros m Hm. replace (a + S m)%nat with (S (a + m)) by lia. apply W. lia.
  - cbn. rewrite Nat.add_0_r, E0. f_equal. lia.
Qed.

(** ** Walks and powers *)
Lemma mpow_walk d A n i j : nonneg_mat d A -> (i < d)%nat -> (j < d)%nat -> mpow d A n i j <> 0 ->
  exists v, walk (medge d A) n v /\ v 0%nat = i /\ v n = j.
Proof.
  intros H. revert i. induction n as [|n IH]; intros i Hi Hj P; cbn in P.
  - unfold mid in P. destruct (Nat.eqb_spec i j) as [->|]; [|lra]. exists (fun _ => j). split; auto. intros m Hm; lia.
  - apply lsum_pos_ex in P.
    2:{ intros k Hk. apply in_seq0 in Hk. apply Rmult_le_pos; auto. apply mpow_nonneg; auto. }
    destruct P as (k & Hk & P). apply in_seq0 in Hk.
    assert (A i k <> 0) by (intros Z; rewrite Z in P; lra).
    destruct (IH k) as (v & W & V0 & Vn); auto. { intros Z; rewrite Z in P; lra. }
    exists (fun m => match m with O => i | S m => v m end). split; auto.
    intros [|m] Hm; [rewrite V0; repeat split; auto|]. apply W. lia.
Qed.

Lemma walk_mpow d A s n v : nonneg_mat d A -> 0 <= s -> (v 0 < d)%nat -> walk (fun i j => (i < d)%nat /\ (j < d)%nat /\ s <= A i j) n v ->
  (v n < d)%nat /\ s ^ n <= mpow d A n (v 0%nat) (v n).
Proof.
  intros H Hs H0 W. induction n as [|n IH].
  - split; auto. cbn. unfold mid. rewrite Nat.eqb_refl. lra.
  - destruct IH as [Hn IH]; [intros m Hm; apply W; lia|]. destruct (W n ltac:(lia)) as (_ & HS & Ha). split; auto.
    replace (S n) with (n + 1)%nat by lia.
    apply Rle_trans with (mpow d A n (v 0%nat) (v n) * mpow d A 1 (v n) (v (n + 1)%nat)).
    + rewrite pow_add. replace (n + 1)%nat with (S n) by lia. rewrite mpow_1 by auto. rewrite pow_1. apply Rmult_le_compat; auto. apply pow_le; auto.
    + apply mpow_via; auto. replace (n + 1)%nat with (S n) by lia. auto.
Qed.

(** A simple cycle of length [L] with squared weights at least [s] contributes [L * s^L] to the trace. *)
Lemma cycle_trace d A s L u : nonneg_mat d A -> 0 <= s -> (0 < L)%nat ->
  walk (fun i j => (i < d)%nat /\ (j < d)%nat /\ s <= A i j) L u -> u 0%nat = u L -> NoDup (map u (seq 0 L)) ->
  (L <= d)%nat /\ INR L * s ^ L <= tr d (mpow d A L).
Proof.
  intros H Hs HL W C N.
  assert (Hu : forall m, (m < L)%nat -> (u m < d)%nat) by (intros m Hm; apply (W m Hm)).
  assert (I : incl (map u (seq 0 L)) (seq 0 d)).
  { intros x Hx. apply in_map_iff in Hx. destruct Hx as (m & <- & Hm). apply in_seq0 in Hm. apply in_seq0. auto. }
  split.
  - apply NoDup_incl_length in I; auto. rewrite map_length, !seq_length in I. auto.
  - apply Rle_trans with (lsum (fun i => mpow d A L i i) (map u (seq 0 L))).
    + apply Rle_trans with (lsum (fun _ => s ^ L) (map u (seq 0 L))).
      * rewrite lsum_const, map_length, seq_length. lra.
      * apply lsum_le. intros x Hx. apply in_map_iff in Hx. destruct Hx as (m & <- & Hm). apply in_seq0 in Hm.
        destruct (walk_mpow d A s m u) as [_ P1]; auto. { intros k Hk; apply W; lia. }
        destruct (walk_mpow d A s (L - m) (fun k => u (m + k)%nat)) as [_ P2]; auto; cbn.
        { rewrite Nat.add_0_r. auto. }
        { intros k Hk. replace (m + S k)%nat with (S (m + k)) by lia. apply W. lia. }
        rewrite Nat.add_0_r in P2. replace (m + (L - m))%nat with L in P2 by lia. rewrite <- C in P2.
        replace L with (L - m + m)%nat at 1 2 by lia. rewrite pow_add.
        apply Rle_trans with (mpow d A (L - m) (u m) (u 0%nat) * mpow d A m (u 0%nat) (u m)).
        -- apply Rmult_le_compat; auto; apply pow_le; auto.
        -- apply mpow_via; auto.
    + unfold tr, rsum. apply lsum_incl; auto. intros y Hy. apply in_seq0 in Hy. apply mpow_nonneg; auto.
Qed.

Lemma tr_0 d A : tr d (mpow d A 0) = INR d.
Proof.
  unfold tr, rsum. cbn [mpow]. rewrite (lsum_ext _ (fun _ => 1)); [rewrite lsum_const, seq_length; lra|].
  intros x _. unfold mid. rewrite Nat.eqb_refl. auto.
Qed.

Lemma tr_nonneg d A n : nonneg_mat d A -> 0 <= tr d (mpow d A n).
Proof. intros H. apply lsum_nonneg. intros x Hx. apply in_seq0 in Hx. apply mpow_nonneg; auto. Qed.

Lemma dag_trace d A n : nonneg_mat d A -> dag d A -> (0 < n)%nat -> tr d (mpow d A n) = 0.
Proof.
  intros H D Hn. apply lsum_zero. intros x Hx. apply in_seq0 in Hx. destruct (Req_dec (mpow d A n x x) 0) as [E|E]; auto. exfalso.
  destruct (mpow_walk d A n x x H Hx Hx E) as (v & W & V0 & Vn). apply (D x). rewrite <- V0 at 1. rewrite <- Vn. apply walk_clos; auto.
Qed.

(** A graph with a cycle has a positive trace at some power up to the dimension. *)
Lemma min_pos (l : list R) : (forall x, In x l -> 0 < x) -> exists s, 0 < s /\ forall x, In x l -> s <= x.
Proof.
  induction l as [|a l IH]; intros H; [exists 1; split; [lra|intros x []]|].
  destruct IH as (s & Hs & P); [intros; apply H; right; auto|]. exists (Rmin a s). split; [apply Rmin_glb_lt; auto; apply H; left; auto|].
  intros x [->|Hx]; [apply Rmin_l|]. apply Rle_trans with s; [apply Rmin_r|auto].
Qed.

Lemma not_dag_cycle d A i : clos_trans nat (medge d A) i i ->
  exists L u, (0 < L)%nat /\ walk (medge d A) L u /\ u 0%nat = u L /\ NoDup (map u (seq 0 L)).
Proof.
  intros H. apply clos_walk in H. destruct H as (n & v & Hn & W & A0 & An). apply (simple_cycle _ n v); auto. congruence.
Qed.

Lemma cycle_positive d A L u : nonneg_mat d A -> (0 < L)%nat -> walk (medge d A) L u -> u 0%nat = u L -> NoDup (map u (seq 0 L)) ->
  (L <= d)%nat /\ 0 < tr d (mpow d A L).
Proof.
  intros H HL W C N.
  destruct (min_pos (map (fun m => A (u m) (u (S m))) (seq 0 L))) as (s & Hs & P).
  { intros x Hx. apply in_map_iff in Hx. destruct Hx as (m & <- & Hm). apply in_seq0 in Hm. destruct (W m Hm) as (X & Y & Z).
    destruct (H _ _ X Y); auto. congruence. }
  destruct (cycle_trace d A s L u) as [A1 A2]; auto; [lra| |].
  - intros m Hm. destruct (W m Hm) as (X & Y & _). repeat split; auto. apply P. apply in_map_iff. exists m. split; auto. apply in_seq0. auto.
  - split; auto. apply Rlt_le_trans with (2 := A2). apply Rmult_lt_0_compat; [apply lt_0_INR; auto|apply pow_lt; auto].
Qed.
