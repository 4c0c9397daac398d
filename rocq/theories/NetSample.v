(** * NetSample: with independent draws from a population the data are probably near it. *)
From Coq Require Import List Bool Arith ZArith Lia String QArith Qcanon Permutation Reals Lra.
From Verif Require Import Base QcX Digraph BbnModel SumOver SmModel SmProofs SmHist SmThms NetModel NetProofs NetFit NetThms NetBridge NetEquiv NetMoral NetMarkov.
From Verif Require Import AcycLink OrdProofs FitBound ConsistLim ConsistNet NetConsist.
Import ListNotations.
Local Open Scope list_scope.
Local Open Scope R_scope.

(** ** Specification *)

(** All samples of [n] independent draws from the population, each with its probability. *)
Fixpoint draws (P : population) (n : nat) : list (list (string -> label) * R) :=
  match n with
  | O => [([], 1)]
  | S n => flat_map (fun fw => map (fun su => (fst fw :: fst su, snd fw * snd su)) (draws P n)) P
  end.

(** The event [Q] has probability at least [p]: the samples of some part of [Q] have. *)
Definition likely (P : population) (n : nat) (p : R) (Q : list (string -> label) -> Prop) : Prop :=
  exists good : list (string -> label) -> bool,
    (forall s, In s (map fst (draws P n)) -> good s = true -> Q s) /\
    p <= total (map snd (filter (fun su => good (fst su)) (draws P n))).

(** The sample as a data frame. *)
Definition frame (cols : list string) (sample : list (string -> label)) : df :=
  mkDf cols (map (fun f => map (fun c => (c, Some (f c))) cols) sample).

(** ** Expectations *)
Definition expect (P : population) (n : nat) (h : list (string -> label) -> R) : R := total (map (fun su => snd su * h (fst su)) (draws P n)).

Lemma total_app l k : total (l ++ k) = total l + total k.
Proof. unfold total. induction l as [|x l IH]; cbn; [ring|]. rewrite IH. ring. Qed.
Lemma total_flat {A} (h : A -> list R) l : total (flat_map h l) = total (map (fun a => total (h a)) l).
Proof. induction l as [|a l IH]; [auto|]. cbn [flat_map map]. rewrite total_app, IH. auto. Qed.
Lemma total_ext {A} (h k : A -> R) l : (forall a, In a l -> h a = k a) -> total (map h l) = total (map k l).
Proof. intros H. f_equal. apply map_ext_in. auto. Qed.
Lemma total_scale {A} c (h : A -> R) l : total (map (fun a => c * h a) l) = c * total (map h l).
Proof. unfold total. induction l as [|a l IH]; cbn; [ring|]. rewrite IH. ring. Qed.
Lemma total_le {A} (h k : A -> R) l : (forall a, In a l -> h a <= k a) -> total (map h l) <= total (map k l).
Proof.
  unfold total. induction l as [|a l IH]; intros H; cbn; [lra|]. specialize (IH (fun x Hx => H x (or_intror Hx))). specialize (H a (or_introl eq_refl)). lra.
Qed.

Section Draws.
  Context (P : population) (WP : weighted P).

  Lemma draws_step n h : expect P (S n) h = total (map (fun fw => snd fw * expect P n (fun s => h (fst fw :: s))) P).
  Proof.
    unfold expect at 1. cbn [draws]. rewrite flat_map_concat_map, concat_map, map_map, <- flat_map_concat_map, total_flat.
    apply total_ext. intros [f w] _. rewrite map_map. cbn [fst snd]. unfold expect. rewrite <- total_scale. apply total_ext. intros [s u] _. cbn. ring.
  Qed.
  Lemma draws_pos n : forall s u, In (s, u) (draws P n) -> 0 <= u.
  Proof.
    induction n as [|n IH]; cbn; intros s u H; [destruct H as [[= <- <-]|[]]; lra|].
    apply in_flat_map in H as ([f w] & Hf & H). apply in_map_iff in H as ([s' u'] & [= <- <-] & H). cbn in *. apply Rmult_le_pos; [apply (proj1 WP f w Hf)|apply (IH s' u' H)].
  Qed.
  Lemma draws_in n : forall s, In s (map fst (draws P n)) -> List.length s = n /\ forall f, In f s -> exists w, In (f, w) P.
  Proof.
    induction n as [|n IH]; cbn; intros s H; [destruct H as [<-|[]]; split; auto; intros f []|].
    apply in_map_iff in H as ([s' u] & <- & H). apply in_flat_map in H as ([f w] & Hf & H). apply in_map_iff in H as ([s'' u'] & [= <- <-] & H). cbn [fst List.length].
    destruct (IH s'') as [L K]; [apply in_map_iff; exists (s'', u'); auto|]. split; [auto|]. intros h [<-|Hh]; eauto.
  Qed.
  Lemma expect_const n c : expect P n (fun _ => c) = c.
  Proof.
    induction n as [|n IH]; [unfold expect, total; cbn; ring|]. rewrite draws_step, IH.
    rewrite (total_ext _ (fun fw => c * snd fw)) by (intros; ring). rewrite total_scale, (proj2 WP). ring.
  Qed.
  Lemma expect_add n h k : expect P n (fun s => h s + k s) = expect P n h + expect P n k.
  Proof. unfold expect. rewrite <- total_add. apply total_ext. intros. ring. Qed.
  Lemma expect_scale n c h : expect P n (fun s => c * h s) = c * expect P n h.
  Proof. unfold expect. rewrite <- total_scale. apply total_ext. intros. ring. Qed.
  Lemma expect_ext n h k : (forall s, h s = k s) -> expect P n h = expect P n k.
  Proof. intros H. apply total_ext. intros a _. rewrite H. auto. Qed.

  (** How far the number of individuals that show [A] is from what is expected. *)
  Definition bit (A : list (string * label)) (f : string -> label) : R := if shows f A then 1 else 0.
  Definition surplus (A : list (string * label)) (s : list (string -> label)) : R := total (map (fun f => bit A f - share P A) s).

  Lemma share_bit A : share P A = total (map (fun fw => snd fw * bit A (fst fw)) P).
  Proof.
    clear. unfold share, total, bit. induction P as [|[f w] l IH]; cbn; auto. destruct (shows f A); cbn; rewrite IH; ring.
  Qed.
  Lemma one_draw A c : total (map (fun fw => snd fw * (c * (bit A (fst fw) - share P A))) P) = 0.
  Proof.
    rewrite (total_ext _ (fun fw => c * (snd fw * bit A (fst fw)) + (- (c * share P A)) * snd fw)) by (intros; ring).
    rewrite total_add, !total_scale, <- share_bit, (proj2 WP). ring.
  Qed.
  Lemma one_square A : total (map (fun fw => snd fw * ((bit A (fst fw) - share P A) * (bit A (fst fw) - share P A))) P) <= 1.
  Proof.
    pose proof (share_nonneg P WP A) as N0. pose proof (share_mono P WP A [] (fun _ _ => eq_refl)) as N1. rewrite (share_nil P WP) in N1.
    apply Rle_trans with (total (map snd P)); [|rewrite (proj2 WP); lra]. apply total_le. intros [f w] H. cbn [fst snd].
    pose proof (proj1 WP f w H) as W. rewrite <- (Rmult_1_r w) at 2. apply Rmult_le_compat_l; auto. unfold bit. destruct (shows f A); nra.
  Qed.
  Lemma surplus_mean A n : expect P n (surplus A) = 0.
  Proof.
    induction n as [|n IH]; [unfold expect, surplus, total; cbn; ring|]. rewrite draws_step.
    rewrite (total_ext _ (fun fw => snd fw * (1 * (bit A (fst fw) - share P A)))); [apply one_draw|]. intros [f w] _. cbn [fst snd]. f_equal.
    rewrite (expect_ext n _ (fun s => (bit A f - share P A) + surplus A s)) by (intros; reflexivity). rewrite expect_add, expect_const, IH. ring.
  Qed.
  Lemma surplus_square A n : expect P n (fun s => surplus A s * surplus A s) <= INR n.
  Proof.
    induction n as [|n IH]; [unfold expect, surplus, total; cbn; lra|]. rewrite draws_step, S_INR.
    rewrite (total_ext _ (fun fw => snd fw * ((bit A (fst fw) - share P A) * (bit A (fst fw) - share P A)) + expect P n (fun s => surplus A s * surplus A s) * snd fw)).
    - rewrite total_add, total_scale, (proj2 WP). pose proof (one_square A). lra.
    - intros [f w] _. cbn [fst snd]. set (x := bit A f - share P A).
      rewrite (expect_ext n _ (fun s => (x * x + 2 * x * surplus A s) + surplus A s * surplus A s)).
      + rewrite !expect_add, expect_const, expect_scale, surplus_mean. ring.
      + intros s. unfold surplus. cbn [map]. unfold total. cbn [fold_right]. fold x. ring.
  Qed.

  (** Chebyshev *)
  Definition far (A : list (string * label)) (t : R) (s : list (string -> label)) : bool := if Rle_dec (Rabs (surplus A s)) t then false else true.
  Lemma chebyshev A t n : 0 < t -> total (map snd (filter (fun su => far A t (fst su)) (draws P n))) <= INR n / (t * t).
  Proof.
    intros Ht. assert (T2 : 0 < t * t) by (apply Rmult_lt_0_compat; auto). apply (Rmult_le_reg_r (t * t)); auto. unfold Rdiv. rewrite Rmult_assoc, Rinv_l, Rmult_1_r by lra.
    eapply Rle_trans; [|apply (surplus_square A n)]. unfold expect. pose proof (draws_pos n) as W. revert W. generalize (draws P n) as l. unfold total. induction l as [|[s u] l IH]; intros W; cbn [map filter fold_right fst snd]; [lra|].
    specialize (IH (fun a b H => W a b (or_intror H))). specialize (W s u (or_introl eq_refl)). unfold far at 1. cbn [fst].
    assert (Sq : 0 <= surplus A s * surplus A s) by nra.
    destruct (Rle_dec (Rabs (surplus A s)) t) as [L|L]; cbn [map fold_right snd]; [nra|]. assert (t * t <= surplus A s * surplus A s).
    { rewrite <- (Rabs_pos_eq (surplus A s * surplus A s)) by auto. rewrite Rabs_mult. nra. }
    assert (u * (t * t) <= u * (surplus A s * surplus A s)) by (apply Rmult_le_compat_l; auto). rewrite Rmult_plus_distr_r. lra.
  Qed.

  (** All the events of a list at once. *)
  Lemma all_close EV t n : 0 < t ->
    1 - INR (List.length EV) * (INR n / (t * t)) <= total (map snd (filter (fun su => forallb (fun A => negb (far A t (fst su))) EV) (draws P n))).
  Proof.
    intros Ht. induction EV as [|A EV IH].
    - cbn [List.length forallb]. rewrite filter_all by auto. pose proof (expect_const n 1) as E. unfold expect in E.
      rewrite (total_ext _ snd) in E by (intros; ring). rewrite E. cbn. lra.
    - cbn [List.length forallb]. rewrite S_INR. pose proof (chebyshev A t n Ht) as C. pose proof (draws_pos n) as W.
      assert (K : total (map snd (filter (fun su => forallb (fun A => negb (far A t (fst su))) EV) (draws P n))) <=
        total (map snd (filter (fun su => negb (far A t (fst su)) && forallb (fun A => negb (far A t (fst su))) EV)%bool (draws P n))) + total (map snd (filter (fun su => far A t (fst su)) (draws P n)))).
      { clear IH C. revert W. generalize (draws P n) as l. unfold total. induction l as [|[s u] l IH]; intros W; cbn; [lra|].
        specialize (IH (fun a b H => W a b (or_intror H))). specialize (W s u (or_introl eq_refl)).
        destruct (far A t s), (forallb _ EV); cbn; lra. }
      lra.
  Qed.
End Draws.

(** ** Frames *)
Lemma frame_at cols (f : string -> label) u : In u cols -> at_col (map (fun c => (c, Some (f c))) cols) u = Some (f u).
Proof.
  intros H. unfold at_col. induction cols as [|c cols IH]; [destruct H|]. cbn. destruct (String.eqb_spec u c) as [->|Ne]; auto.
  apply IH. destruct H; congruence.
Qed.

Lemma frame_share cols s A : (forall u x, In (u, x) A -> In u cols) ->
  rows_share (frame cols s) A = INR (List.length (filter (fun f => shows f A) s)) / INR (List.length s).
Proof.
  intros H. unfold rows_share, frame. cbn [d_rows]. rewrite map_length. f_equal. f_equal. induction s as [|f s IH]; cbn; auto.
  replace (forallb (fun ux => holds (map (fun c => (c, Some (f c))) cols) (fst ux) (snd ux)) A) with (shows f A); [destruct (shows f A); cbn; rewrite IH; auto|].
  unfold shows. clear IH. induction A as [|[u x] A IHA]; cbn; auto. rewrite IHA by (intros; eapply H; right; eauto). f_equal. unfold holds. rewrite frame_at; auto. apply (H u x). left. auto.
Qed.

Lemma surplus_share P A s cols : s <> [] -> (forall u x, In (u, x) A -> In u cols) ->
  rows_share (frame cols s) A - share P A = surplus P A s / INR (List.length s).
Proof.
  intros Ne H. rewrite frame_share by auto.
  assert (Nz : INR (List.length s) <> 0) by (apply not_0_INR; destruct s; [congruence|discriminate]).
  assert (E : surplus P A s = INR (List.length (filter (fun f => shows f A) s)) - INR (List.length s) * share P A).
  { clear. unfold surplus, total. induction s as [|f s IH]; [cbn; ring|]. cbn [map fold_right filter List.length]. rewrite IH, S_INR. unfold bit. destruct (shows f A); cbn [List.length]; rewrite ?S_INR; ring. }
  rewrite E. field. auto.
Qed.

(** All the value combinations of some nodes. *)
Definition combos (dom : string -> list label) (C : list string) : list (list (string * label)) := map (combine C) (product (map dom C)).
Lemma combos_In dom f C : (forall u, In u C -> In (f u) (dom u)) -> In (given f C) (combos dom C).
Proof.
  intros H. unfold combos. apply in_map_iff. exists (map f C). split.
  - clear. unfold given. induction C as [|c C IH]; cbn; [auto|]. rewrite IH. auto.
  - apply product_In. induction C as [|c C IH]; cbn; constructor; [apply H; left; auto|apply IH; intros; apply H; right; auto].
Qed.

Section Sampling.
  Context (g : graph) (order : list string) (P : population) (dom : string -> list label).
  Context (Nm : named g) (PF : parents_first g order) (WP : weighted P) (VI : values_in g dom P).

  Lemma events : exists EV : list (list (string * label)), forall s t, s <> [] -> (forall f, In f s -> exists w, In (f, w) P) -> 0 <= t ->
    forallb (fun A => negb (far P A (t * INR (List.length s)) s)) EV = true -> near g P (frame order s) t.
  Proof.
    destruct PF as (NDo & Ino & _).
    assert (Fam : forall l, exists EV : list (list (string * label)), forall v, In v l -> exists ps, parents_are g v ps /\ incl (combos dom ps) EV /\ incl (combos dom (v :: ps)) EV).
    { induction l as [|v l (EV & H)]; [exists []; intros v []|]. destruct (parents_exist g v Nm) as (ps & Hps).
      exists (combos dom ps ++ combos dom (v :: ps) ++ EV). intros u [<-|Hu].
      - exists ps. split; auto. split; intros x Hx; apply in_or_app; [left|right; apply in_or_app; left]; auto.
      - destruct (H u Hu) as (qs & A & B & C). exists qs. split; auto. split; intros x Hx; apply in_or_app; right; apply in_or_app; right; auto. }
    destruct (Fam order) as (EV & HEV). exists EV. intros s t Ne Hs Ht G v qs f Hv Hq.
    assert (Ov : In v order) by (apply Ino; auto). destruct (HEV v Ov) as (ps & Hp & I1 & I2).
    assert (Pn : 0 < INR (List.length s)) by (apply (lt_INR 0); destruct s; [congruence|cbn; lia]).
    assert (Same : forall x, In x qs <-> In x ps) by (intros x; rewrite (proj2 Hq x), (proj2 Hp x); tauto).
    assert (Pord : forall x, In x ps -> In x order).
    { intros x Hx. apply (proj2 Hp) in Hx. destruct PF as (_ & _ & Q). apply in_split in Ov as (a & c & E). assert (In x a) by (apply (Q a v c x E Hx)). rewrite E. apply in_or_app. auto. }
    assert (One : forall C, incl C order -> incl (combos dom C) EV -> Rabs (rows_share (frame order s) (given f C) - share P (given f C)) <= t).
    { intros C IC IE. assert (KA : forall u x, In (u, x) (given f C) -> In u order) by (intros u x H; apply in_map_iff in H as (c & [= <- <-] & Hc); auto).
      destruct (forallb (fun u => lmem (f u) (dom u)) C) eqn:Q.
      - rewrite forallb_forall in Q. assert (In (given f C) EV) as InE by (apply IE, combos_In; intros u Hu; apply lmem_In; auto).
        rewrite forallb_forall in G. specialize (G _ InE). unfold far in G. destruct (Rle_dec _ _) as [L|L]; [|discriminate].
        rewrite (surplus_share P _ s order) by auto. unfold Rdiv. rewrite Rabs_mult, (Rabs_pos_eq (/ _)) by (left; apply Rinv_0_lt_compat; auto).
        apply (Rmult_le_reg_r (INR (List.length s))); auto. rewrite Rmult_assoc, Rinv_l, Rmult_1_r by lra. auto.
      - assert (X : exists u, In u C /\ lmem (f u) (dom u) = false).
        { clear -Q. induction C as [|x l IH]; [discriminate|]. cbn in Q. destruct (lmem (f x) (dom x)) eqn:L; [|exists x; cbn; auto].
          destruct IH as (u & Hu & L'); [auto|]. exists u. cbn. auto. }
        destruct X as (u & Hu & L). assert (Nu : ~ In (f u) (dom u)) by (intros H; apply lmem_In in H; congruence).
        assert (Z : forall i w, In (i, w) P -> shows i (given f C) = false).
        { intros i w Hi. apply not_true_is_false. intros H. apply Nu. rewrite <- (proj1 (shows_given i f C) H u Hu). apply (VI i w); auto. apply Ino; auto. }
        rewrite frame_share by auto. unfold share.
        replace (filter (fun i => shows (fst i) (given f C)) P) with (@nil ((string -> label) * R)).
        2:{ clear -Z. induction P as [|[i w] l IH]; cbn; auto. rewrite (Z i w) by (left; auto). apply IH. intros j x Hj. apply (Z j x). right; auto. }
        replace (filter (fun i => shows i (given f C)) s) with (@nil (string -> label)).
        2:{ clear -Z Hs. induction s as [|i l IH]; cbn; auto. destruct (Hs i (or_introl eq_refl)) as (w & Hw). rewrite (Z i w Hw). apply IH. intros j Hj. apply Hs. right; auto. }
        cbn. unfold Rdiv. rewrite Rmult_0_l. unfold total. cbn. rewrite Rminus_0_r, Rabs_R0. auto. }
    assert (E : forall C D : list string, incl C D -> incl D C -> rows_share (frame order s) (given f C) = rows_share (frame order s) (given f D)).
    { intros C D A B. rewrite !rows_share_agree, (agree_same _ f C D) by auto. auto. }
    rewrite (E qs ps), (E (v :: qs) (v :: ps)), (share_same P WP f qs ps), (share_same P WP f (v :: qs) (v :: ps));
      try (intros x Hx; apply Same; auto; fail); try (intros x [->|Hx]; [left; auto|right; apply Same; auto]).
    split; apply One; auto. intros x [<-|Hx]; auto.
  Qed.

  Lemma frame_fine s : s <> [] -> (forall f, In f s -> exists w, In (f, w) P) -> (forall v, In v order -> one_kind (dom v)) -> complete (frame order s) /\ data_in g dom (frame order s).
  Proof.
    intros Ne Hs K. destruct PF as (NDo & Ino & _).
    assert (At : forall r c, In r (d_rows (frame order s)) -> In c order -> exists f w, In (f, w) P /\ at_col r c = Some (f c)).
    { intros r c Hr Hc. apply in_map_iff in Hr as (f & <- & Hf). destruct (Hs f Hf) as (w & Hw). exists f, w. split; auto. apply frame_at; auto. }
    split; [split; [auto|split; [|split]]|split].
    - cbn. destruct s; [congruence|discriminate].
    - intros r c Hr Hc E. destruct (At r c Hr Hc) as (f & w & _ & E'). congruence.
    - intros c Hc. apply (one_kind_sub (dom c)); [|apply K; auto]. intros x Hx. apply drop_none_In, in_map_iff in Hx as (r & E & Hr).
      destruct (At r c Hr Hc) as (f & w & Hf & E'). rewrite E' in E. injection E as <-. apply (VI f w); auto. apply Ino; auto.
    - intros x Hx. apply Ino. auto.
    - intros r v x Hr Hv E. destruct (At r v Hr) as (f & w & Hf & E'); [apply Ino; auto|]. rewrite E' in E. injection E as <-. apply (VI f w); auto.
  Qed.

  (** The weak law of large numbers for the families. *)
  Lemma weak_law (Q : df -> Prop) delta eta : 0 < delta -> 0 < eta -> (forall v, In v order -> one_kind (dom v)) ->
    (forall d, complete d -> data_in g dom d -> near g P d delta -> 1 <= delta * INR (List.length (d_rows d)) -> Q d) ->
    exists n0, forall n, (n0 <= n)%nat -> likely P n (1 - eta) (fun s => Q (frame order s)).
  Proof.
    intros Hd He K HQ. destruct events as (EV & HEV).
    assert (D2 : 0 < delta * delta) by (apply Rmult_lt_0_compat; auto).
    set (M := Rmax (/ delta) (INR (List.length EV) / (delta * delta * eta))).
    assert (X : exists n0, M < INR n0).
    { exists (Z.to_nat (up M)). destruct (archimed M) as [U _]. eapply Rlt_le_trans; [exact U|]. rewrite INR_IZR_INZ. apply IZR_le. lia. }
    destruct X as (n0 & Hn0). exists (S n0). intros n Ln.
    assert (Pn : 0 < INR n) by (apply (lt_INR 0); lia).
    assert (Hn : M < INR n) by (apply Rlt_le_trans with (INR n0); auto; apply le_INR; lia).
    pose proof (Rmax_l (/ delta) (INR (List.length EV) / (delta * delta * eta))) as M1. pose proof (Rmax_r (/ delta) (INR (List.length EV) / (delta * delta * eta))) as M2. fold M in M1, M2.
    exists (fun s => forallb (fun A => negb (far P A (delta * INR n) s)) EV). split.
    - intros s Hs G. destruct (draws_in P n s Hs) as [L I]. assert (Ne : s <> []) by (intros ->; cbn in L; lia).
      destruct (frame_fine s Ne I K) as [C D]. apply HQ; auto.
      + apply (HEV s delta); auto; [lra|]. rewrite L. auto.
      + unfold frame. cbn [d_rows]. rewrite map_length, L. apply (Rmult_le_reg_l (/ delta)); [apply Rinv_0_lt_compat; auto|]. rewrite <- Rmult_assoc, Rinv_l by lra. lra.
    - eapply Rle_trans; [|apply (all_close P WP EV (delta * INR n) n); apply Rmult_lt_0_compat; auto].
      apply Rplus_le_compat_l, Ropp_le_contravar.
      replace (INR (List.length EV) * (INR n / (delta * INR n * (delta * INR n)))) with (INR (List.length EV) / (delta * delta * eta) * eta / INR n) by (field; lra).
      apply (Rmult_le_reg_r (INR n)); auto. unfold Rdiv at 1. rewrite Rmult_assoc, Rinv_l, Rmult_1_r by lra. rewrite (Rmult_comm eta). apply Rmult_le_compat_r; lra.
  Qed.
End Sampling.
