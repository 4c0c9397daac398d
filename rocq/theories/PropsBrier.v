(** * PropsBrier: property C135 (predicted probabilities have the least squared error). *)
From Coq Require Import List Bool Arith ZArith Lia String QArith Qcanon Permutation Reals Lra.
From Verif Require Import Base QcX Digraph SmModel SmProofs SmHist SmThms NetModel NetProofs NetFit NetThms NetBridge NetEquiv NetMoral NetMarkov PropsEquiv PropsMarkov.
From Verif Require Import OrdProofs AcycLink NetConsist NetSample PropsConsist PropsDraws VoteProofs PropsVote HeldProofs PropsHeld CalibProofs PropsCalib BrierProofs BrierHeld.
Import ListNotations.
Local Open Scope string_scope.
Local Open Scope list_scope.
Local Open Scope R_scope.

(** No rule that looks at the parents of [v] has a smaller Brier score on the training data than the predicted probabilities; the
    score of every such rule exceeds theirs by the squared differences of the two. *)
Theorem C135_best : forall g d prior ess v ps order pg, reached g -> named g -> acyclic (edges g) -> all_linked g -> edges g <> [] ->
  (forall x, In (LStr x) (nodes g) -> In x (d_cols d)) -> complete d -> In (LStr v) (nodes g) -> parents_are g v ps ->
  NoDup order -> (forall s, In s order <-> exists r, In r (d_rows d) /\ at_col r v = Some s) ->
  (forall s p, In s order -> In p ps -> p <> col_name v s) ->
  exists b prob, learnt_from g d "MaximumLikelihoodEstimator" prior ess b /\
    predict_probability order pg b d v = Ok (map (col_name v) order, map (fun r => map (fun s => CNum (prob r s)) order) (d_rows d)) /\
    looks_at_parents g v (fun r s => realq (prob r s)) /\
    forall rule, looks_at_parents g v rule ->
      brier (d_rows d) v order (fun r s => realq (prob r s)) <= brier (d_rows d) v order rule /\
      brier (d_rows d) v order rule - brier (d_rows d) v order (fun r s => realq (prob r s)) =
        total (map (fun r => total (map (fun s => (realq (prob r s) - rule r s) ^ 2) order)) (d_rows d)).
Proof.
  intros g d prior ess v ps order pg Rg Nm AC AL NE Names CD Hv Hps NDo Ord NC.
  destruct (least_squares g d prior ess v ps order pg Rg Nm AC AL NE Names CD Hv Hps NDo Ord NC) as (b & prob & L & Pp & Look & H).
  exists b, prob. repeat (split; [assumption|]). intros rule Hr. specialize (H rule Hr). split; [|lra].
  assert (0 <= total (map (fun r => total (map (fun s => (realq (prob r s) - rule r s) ^ 2) order)) (d_rows d))); [|lra].
  clear. unfold total. induction (d_rows d) as [|r l IH]; cbn [map fold_right]; [lra|]. apply Rplus_le_le_0_compat; [|exact IH].
  clear IH. induction order as [|s o IHo]; cbn [map fold_right]; [lra|]. apply Rplus_le_le_0_compat; [apply pow2_ge_0|exact IHo].
Qed.
Print Assumptions C135_best.

(** Another rule has the same score only if it says the same on every training row. *)
Lemma total_zero A (f : A -> R) l : (forall x, In x l -> 0 <= f x) -> total (map f l) = 0 -> forall x, In x l -> f x = 0.
Proof.
  assert (N : forall l, (forall x, In x l -> 0 <= f x) -> 0 <= total (map f l)).
  { clear. intros l. unfold total. induction l as [|y l IH]; intros H; cbn [map fold_right]; [lra|]. apply Rplus_le_le_0_compat; [apply H; left; auto|apply IH; intros; apply H; right; auto]. }
  induction l as [|y l IH]; intros H E x Hx; [destruct Hx|].
  pose proof (N l (fun z Hz => H z (or_intror Hz))) as A1. pose proof (H y (or_introl eq_refl)) as A2. unfold total in *. cbn [map fold_right] in E.
  destruct Hx as [<-|Hx]; [lra|]. apply IH; auto; [intros; apply H; right; auto|lra].
Qed.

Theorem C135_unique : forall g d prior ess v ps order pg, reached g -> named g -> acyclic (edges g) -> all_linked g -> edges g <> [] ->
  (forall x, In (LStr x) (nodes g) -> In x (d_cols d)) -> complete d -> In (LStr v) (nodes g) -> parents_are g v ps ->
  NoDup order -> (forall s, In s order <-> exists r, In r (d_rows d) /\ at_col r v = Some s) ->
  (forall s p, In s order -> In p ps -> p <> col_name v s) ->
  exists b prob, learnt_from g d "MaximumLikelihoodEstimator" prior ess b /\
    predict_probability order pg b d v = Ok (map (col_name v) order, map (fun r => map (fun s => CNum (prob r s)) order) (d_rows d)) /\
    forall rule, looks_at_parents g v rule -> brier (d_rows d) v order rule <= brier (d_rows d) v order (fun r s => realq (prob r s)) ->
      forall r s, In r (d_rows d) -> In s order -> rule r s = realq (prob r s).
Proof.
  intros g d prior ess v ps order pg Rg Nm AC AL NE Names CD Hv Hps NDo Ord NC.
  destruct (C135_best g d prior ess v ps order pg Rg Nm AC AL NE Names CD Hv Hps NDo Ord NC) as (b & prob & L & Pp & Look & H).
  exists b, prob. repeat (split; [assumption|]). intros rule Hr Le r s Ir Is. destruct (H rule Hr) as [Ge Eq].
  assert (Z : total (map (fun r => total (map (fun s => (realq (prob r s) - rule r s) ^ 2) order)) (d_rows d)) = 0) by lra.
  assert (Sq : forall r' o, 0 <= total (map (fun s => (realq (prob r' s) - rule r' s) ^ 2) o)).
  { intros r' o. unfold total. induction o as [|y o IH]; cbn [map fold_right]; [lra|]. apply Rplus_le_le_0_compat; [apply pow2_ge_0|exact IH]. }
  pose proof (total_zero _ _ _ (fun r' _ => Sq r' order) Z r Ir) as Zr. cbn beta in Zr.
  pose proof (total_zero _ _ _ (fun s' _ => pow2_ge_0 (realq (prob r s') - rule r s')) Zr s Is) as Zs. cbn beta in Zs.
  assert (realq (prob r s) - rule r s = 0); [|lra]. destruct (Req_dec (realq (prob r s) - rule r s) 0) as [E|E]; auto. exfalso. exact (pow_nonzero _ 2 E Zs).
Qed.
Print Assumptions C135_unique.

(** A structure that gives [v] more parents never has a larger Brier score on the training data. *)
Theorem C135_more_parents : forall g g' d prior ess prior' ess' v ps ps' order pg, reached g -> named g -> acyclic (edges g) -> all_linked g -> edges g <> [] ->
  reached g' -> named g' -> acyclic (edges g') -> all_linked g' -> edges g' <> [] ->
  (forall x, In (LStr x) (nodes g) \/ In (LStr x) (nodes g') -> In x (d_cols d)) -> complete d -> In (LStr v) (nodes g) -> In (LStr v) (nodes g') ->
  parents_are g v ps -> parents_are g' v ps' -> incl ps ps' ->
  NoDup order -> (forall s, In s order <-> exists r, In r (d_rows d) /\ at_col r v = Some s) ->
  (forall s p, In s order -> In p ps' -> p <> col_name v s) ->
  exists b b' prob prob', learnt_from g d "MaximumLikelihoodEstimator" prior ess b /\ learnt_from g' d "MaximumLikelihoodEstimator" prior' ess' b' /\
    predict_probability order pg b d v = Ok (map (col_name v) order, map (fun r => map (fun s => CNum (prob r s)) order) (d_rows d)) /\
    predict_probability order pg b' d v = Ok (map (col_name v) order, map (fun r => map (fun s => CNum (prob' r s)) order) (d_rows d)) /\
    brier (d_rows d) v order (fun r s => realq (prob' r s)) <= brier (d_rows d) v order (fun r s => realq (prob r s)).
Proof.
  intros g g' d prior ess prior' ess' v ps ps' order pg Rg Nm AC AL NE Rg' Nm' AC' AL' NE' Names CD Hv Hv' Hps Hps' Sub NDo Ord NC.
  destruct (C135_best g d prior ess v ps order pg Rg Nm AC AL NE (fun x H => Names x (or_introl H)) CD Hv Hps NDo Ord (fun s p H I => NC s p H (Sub p I))) as (b & prob & L & Pp & Look & _).
  destruct (C135_best g' d prior' ess' v ps' order pg Rg' Nm' AC' AL' NE' (fun x H => Names x (or_intror H)) CD Hv' Hps' NDo Ord NC) as (b' & prob' & L' & Pp' & _ & Best).
  exists b, b', prob, prob'. repeat (split; [assumption|]). apply Best. intros r r' H s. apply Look. intros p Hp. apply H, Hps', Sub, Hps. auto.
Qed.
Print Assumptions C135_more_parents.

(** On other data with nearly the same shares no rule that looks at the parents of [v] and gives numbers between 0 and 1 is much better, for any of the estimators. *)
Theorem C135_held_out : forall g d method prior ess dom v ps test eps order pg, reached g -> named g -> acyclic (edges g) -> all_linked g -> edges g <> [] ->
  (forall x, In (LStr x) (nodes g) -> In x (d_cols d)) -> complete d -> sound_way method prior ess -> In (LStr v) (nodes g) -> parents_are g v ps ->
  complete test -> data_in g dom test -> alike g d test eps -> 0 <= eps ->
  (forall p x, In p ps -> In x (dom p) -> exists r, In r (d_rows d) /\ at_col r p = Some x) ->
  NoDup order -> (forall s, In s order <-> exists r, In r (d_rows d) /\ at_col r v = Some s) ->
  (forall s p, In s order -> In p ps -> p <> col_name v s) ->
  exists b prob, learnt_from g d method prior ess b /\
    predict_probability order pg b test v = Ok (map (col_name v) order, map (fun r => map (fun s => CNum (prob r s)) order) (d_rows test)) /\
    forall rule, looks_at_parents g v rule -> (forall r s, In r (d_rows test) -> In s order -> 0 <= rule r s <= 1) ->
      brier (d_rows test) v order (fun r s => realq (prob r s)) / INR (List.length (d_rows test)) <= brier (d_rows test) v order rule / INR (List.length (d_rows test)) +
        2 * INR (List.length order) * (2 * INR (choices dom ps) * eps + added method prior ess (List.length order) (choices dom ps) / INR (List.length (d_rows d))).
Proof. exact nearly_best. Qed.
Print Assumptions C135_held_out.

(** Training and test data drawn independently from a population: with enough of both, with probabilities as near to one as wanted, the mean
    squared error on the test data exceeds that of no rule that looks at the parents by more than any tolerance, whatever rule one tries after seeing the test data. *)
Theorem C135_probably : forall g method prior ess order P dom v ps states pg eps eta, reached g -> named g -> acyclic (edges g) -> all_linked g -> edges g <> [] ->
  sound_way method prior ess -> parents_first g order -> weighted P -> values_in g dom P -> (forall u, In u order -> one_kind (dom u)) ->
  (forall f w, In (f, w) P -> 0 < w) -> (forall u x, In (LStr u) (nodes g) -> In x (dom u) -> exists f w, In (f, w) P /\ f u = x) ->
  In (LStr v) (nodes g) -> parents_are g v ps -> NoDup states -> (forall s, In s states <-> In s (dom v)) ->
  (forall s p, In s states -> In p ps -> p <> col_name v s) -> 0 < eps -> 0 < eta ->
  exists n0, forall n m, (n0 <= n)%nat -> (n0 <= m)%nat -> likely P n (1 - eta) (fun train => likely P m (1 - eta) (fun test =>
    exists b prob, learnt_from g (frame order train) method prior ess b /\
      predict_probability states pg b (frame order test) v =
        Ok (map (col_name v) states, map (fun r => map (fun s => CNum (prob r s)) states) (d_rows (frame order test))) /\
      forall rule, looks_at_parents g v rule -> (forall r s, 0 <= rule r s <= 1) ->
        brier (d_rows (frame order test)) v states (fun r s => realq (prob r s)) / INR (List.length test) <= brier (d_rows (frame order test)) v states rule / INR (List.length test) + eps)).
Proof.
  intros g method prior ess order P dom v ps states pg eps eta Rg Nm AC AL NE SW PF WP VI OK Pos Dom Hv Hps NDs Sts NC He Ht.
  pose proof PF as (NDo & Ino & Pfst).
  assert (Po : forall p, In p ps -> In (LStr p) (nodes g)).
  { intros p Hp. apply Ino. apply Ino in Hv. apply in_split in Hv as (pre & post & E). rewrite E. apply in_or_app. left. apply (Pfst pre v post p E), Hps. auto. }
  destruct (small (fun (i : (string -> label) * R) x => x < share P (given (fst i) (v :: ps))) P) as (d2 & H2 & Small).
  { intros a x y Hx Le X. lra. }
  { intros [i w] Hi. cbn [fst]. assert (0 < share P (given i (v :: ps))) by (apply (share_individual P WP i w); eauto; apply shows_given; auto).
    exists (share P (given i (v :: ps)) / 2). split; lra. }
  pose proof (pos_INR (choices dom ps)) as Kp. set (M := added method prior ess (List.length states) (choices dom ps)).
  assert (HM : 0 <= M).
  { unfold M, added. destruct (String.eqb_spec method "MaximumLikelihoodEstimator") as [|N]; [lra|]. destruct SW as [|[_ [->|[-> (e & -> & Pe)]]]]; [contradiction|apply pos_INR|apply Rlt_le, realq_above; auto]. }
  pose proof (pos_INR (List.length states)) as Ks. set (K := 2 * INR (List.length states) * (4 * INR (choices dom ps) + M) + 1).
  assert (HK : 0 < K) by (unfold K; assert (0 <= 2 * INR (List.length states) * (4 * INR (choices dom ps) + M)) by (apply Rmult_le_pos; lra); lra).
  assert (Q : 0 < eps / K) by (apply Rdiv_lt_0_compat; auto).
  set (delta := Rmin d2 (eps / K)). assert (D0 : 0 < delta) by (unfold delta; apply Rmin_glb_lt; auto).
  assert (D2 : delta <= d2) by apply Rmin_l. assert (D3 : delta <= eps / K) by apply Rmin_r.
  destruct (weak_law g order P dom Nm PF WP VI (fun d => complete d /\ data_in g dom d /\ near g P d delta /\ 1 <= delta * INR (List.length (d_rows d))) delta eta D0 Ht OK) as (n0 & W); [auto|].
  exists n0. intros n m Hn Hm. eapply likely_mono; [|apply (W n Hn)]. intros train (A1 & A2 & A3 & A4). eapply likely_mono; [|apply (W m Hm)]. intros test (B1 & B2 & B3 & _).
  assert (Shown : forall p x, In p (v :: ps) -> In x (dom p) -> exists r, In r (d_rows (frame order train)) /\ at_col r p = Some x).
  { intros p x Hp Hx. destruct (Dom p x) as (i & w & Hi & <-); [destruct Hp as [<-|Hp]; auto|auto|]. pose proof (Small _ Hi) as G. cbn [fst] in G.
    destruct (A3 v ps i Hv Hps) as [_ X]. rewrite rows_share_agree in X. set (d := frame order train) in *.
    destruct (agree (d_rows d) i (v :: ps)) as [|k] eqn:Ea.
    { exfalso. cbn [INR] in X. unfold Rdiv in X. rewrite Rmult_0_l in X. unfold Rminus in X. rewrite Rplus_0_l, Rabs_Ropp, Rabs_pos_eq in X by lra. lra. }
    unfold agree in Ea. destruct (filter (fun r => forallb (fun u => holds r u (i u)) (v :: ps)) (d_rows d)) as [|r l] eqn:Qf; [cbn in Ea; lia|].
    assert (Hr : In r (r :: l)) by (left; auto). rewrite <- Qf in Hr. apply filter_In in Hr as [Hr Y]. exists r. split; auto.
    rewrite forallb_forall in Y. specialize (Y p Hp). unfold holds in Y. destruct (at_col r p) as [y|]; [|discriminate]. destruct (label_eqb_spec y (i p)); [subst; auto|discriminate]. }
  destruct (C135_held_out g (frame order train) method prior ess dom v ps (frame order test) (2 * delta) states pg Rg Nm AC AL NE (proj1 A2) A1 SW Hv Hps B1 B2) as (b & prob & L & Pp & H); auto.
  - intros u us f Hu Hus. destruct (A3 u us f Hu Hus) as [a1 a2]. destruct (B3 u us f Hu Hus) as [b1 b2].
    split; apply Rabs_le; apply abs_le in a1, a2, b1, b2; lra.
  - lra.
  - intros p x Hp. apply Shown. right. auto.
  - intros s. rewrite Sts. split; [intros X; apply Shown; [left; auto|auto]|]. intros (r & Hr & Er). apply (proj2 A2 r v s); auto.
  - exists b, prob. split; [auto|]. split; [auto|]. intros rule Hr H01. specialize (H rule Hr (fun r s _ _ => H01 r s)). cbn [frame d_rows] in H |- *. rewrite map_length in H.
    eapply Rle_trans; [exact H|]. apply Rplus_le_compat_l. apply Rle_trans with (K * (eps / K)); [|right; field; lra]. fold M.
    cbn [frame d_rows] in A4. rewrite map_length in A4. set (n' := INR (List.length train)) in *.
    assert (Pn : 0 < n') by (assert (0 <= n') by apply pos_INR; destruct (Req_dec n' 0) as [Z|]; [rewrite Z, Rmult_0_r in A4; lra|lra]).
    assert (Mn : M / n' <= M * delta).
    { unfold Rdiv. apply Rmult_le_compat_l; auto. apply Rmult_le_reg_r with n'; auto. rewrite Rinv_l by lra. auto. }
    apply Rle_trans with (K * delta); [|apply Rmult_le_compat_l; lra]. rewrite map_length. fold n'.
    apply Rle_trans with (2 * INR (List.length states) * ((4 * INR (choices dom ps) + M) * delta)); [apply Rmult_le_compat_l; lra|]. unfold K. lra.
Qed.
Print Assumptions C135_probably.

(** ** Cases *)

(** With a prior the squared error is not the least: here the state is a function of the parent, so a rule without error exists. *)
Theorem C135_prior_refuted : exists g d b prob order rule, reached g /\ named g /\ acyclic (edges g) /\ all_linked g /\ edges g <> [] /\ complete d /\
  learnt_from g d "BayesianEstimator" (Some "K2") None b /\
  (forall pg, predict_probability order pg b d "b" = Ok (map (col_name "b") order, map (fun r => map (fun s => CNum (prob r s)) order) (d_rows d))) /\
  looks_at_parents g "b" rule /\ brier (d_rows d) "b" order rule = 0 /\ 0 < brier (d_rows d) "b" order (fun r s => realq (prob r s)).
Proof.
  exists couple, twins, (fit_to couple twins bay (Some "K2") None), thirds, [LInt 0; LInt 1],
    (fun r s => match at_col r "a" with Some x => if label_eqb x s then 1 else 0 | None => 0 end).
  split; [apply built|]. split; [exists ["a"; "b"]; reflexivity|].
  destruct (fine [("a", "b")]) as [A B]; [reflexivity|vm_compute; lia|]. split; [exact A|]. split; [exact B|]. split; [discriminate|]. split.
  { split; [repeat constructor; cbn; intuition discriminate|]. split; [discriminate|]. split.
    - intros r c H K. cbn in H, K. decompose [or] H; decompose [or] K; subst; try discriminate; tauto.
    - intros c K. left. intros x H. cbn in K. decompose [or] K; subst; cbn in H; decompose [or] H; subst; eauto; tauto. }
  split; [unfold learnt_from; eexists; eexists; repeat split; vm_compute; reflexivity|]. split.
  { intros pg. vm_compute. repeat f_equal; apply Qc_is_canon; reflexivity. }
  split; [intros r r' H s; rewrite (H "a") by (cbn; auto); auto|].
  split; unfold brier, shown_state, total; cbn; [lra|]. unfold thirds, realq. cbn. unfold Q2R. cbn. lra.
Qed.
Print Assumptions C135_prior_refuted.

(** The chain and the seven rows: for c = 1 the probability is 1/2 in four rows and 2/3 in three, and the score is 10/3.  Saying 1/2 always gives 7/2. *)
Definition halves (r : list (string * option label)) (s : label) : Qc :=
  if holds r "b" (LInt 0) then Q2Qc (1 # 2) else if label_eqb s (LInt 0) then Q2Qc (1 # 3) else Q2Qc (2 # 3).
Example C135_run :
  (exists out, predict_probability [LInt 0; LInt 1] (fun _ _ => []) (fit_to chain mixed mle None None) mixed "c" = Ok (["c_0"; "c_1"], out) /\
    map (map (fun c => match c with CNum q => this q | _ => 0%Q end)) out = map (fun r => map (fun s => this (halves r s)) [LInt 0; LInt 1]) (d_rows mixed)) /\
  brier (d_rows mixed) "c" [LInt 0; LInt 1] (fun r s => realq (halves r s)) = 10 / 3 /\
  brier (d_rows mixed) "c" [LInt 0; LInt 1] (fun _ _ => 1 / 2) = 7 / 2 /\ looks_at_parents chain "c" (fun _ _ => 1 / 2).
Proof.
  split; [eexists; split; vm_compute; reflexivity|].
  split; [unfold brier, shown_state, total; cbn; unfold halves, realq; cbn; unfold Q2R; cbn; lra|].
  split; [unfold brier, shown_state, total; cbn; lra|]. intros r r' _ s. auto.
Qed.

(** The hypotheses of C135_best, C135_unique, C135_held_out and C135_probably are those of C134 and met by [C134_met] and the cases of C130 and C133; those of C135_more_parents by the chain and the triangle. *)
Example C135_met : reached triangle /\ named triangle /\ acyclic (edges triangle) /\ all_linked triangle /\ edges triangle <> [] /\
  (forall x, In (LStr x) (nodes chain) \/ In (LStr x) (nodes triangle) -> In x (d_cols mixed)) /\ parents_are chain "c" ["b"] /\ parents_are triangle "c" ["a"; "b"] /\ incl ["b"] ["a"; "b"] /\
  (forall s p, In s [LInt 0; LInt 1] -> In p ["a"; "b"] -> p <> col_name "c" s).
Proof.
  split; [apply built|]. split; [exists ["a"; "b"; "c"]; reflexivity|].
  destruct (fine [("a", "b"); ("b", "c"); ("a", "c")]) as [A B]; [reflexivity|vm_compute; lia|]. split; [exact A|]. split; [exact B|]. split; [discriminate|]. split.
  { intros x [H|H]; cbn in H |- *; intuition congruence. }
  split; [apply C134_met|]. split; [split; [repeat constructor; cbn; intuition discriminate|intros p; cbn; intuition congruence]|]. split; [intros x [<-|[]]; cbn; auto|].
  intros s p [<-|[<-|[]]] [<-|[<-|[]]]; vm_compute; discriminate.
Qed.
