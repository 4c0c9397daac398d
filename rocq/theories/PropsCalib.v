(** * PropsCalib: property C134 (predicted probabilities are calibrated). *)
From Coq Require Import List Bool Arith ZArith Lia String QArith Qcanon Permutation Reals Lra.
From Verif Require Import Base QcX Digraph SmModel SmProofs SmHist SmThms NetModel NetProofs NetFit NetThms NetBridge NetEquiv NetMoral NetMarkov PropsEquiv PropsMarkov.
From Verif Require Import OrdProofs AcycLink NetConsist NetSample PropsConsist PropsDraws VoteProofs PropsVote HeldProofs PropsHeld CalibProofs.
Import ListNotations.
Local Open Scope string_scope.
Local Open Scope list_scope.
Local Open Scope R_scope.

(** [order] are the states of [v] in the order of the columns of the answer.  [bin] is any set of probabilities.  Among the test rows
    with a predicted probability of [s] in [bin], the rows that show [s] are as many as the probabilities add up to, but for at most
    the given share of the test rows.  [added]: nothing for maximum likelihood, the equivalent sample size for BDeu, one for each cell of
    the table for K2. *)
Theorem C134_held_out : forall g d method prior ess dom v ps test eps order pg, reached g -> named g -> acyclic (edges g) -> all_linked g -> edges g <> [] ->
  (forall x, In (LStr x) (nodes g) -> In x (d_cols d)) -> complete d -> sound_way method prior ess -> In (LStr v) (nodes g) -> parents_are g v ps ->
  complete test -> data_in g dom test -> alike g d test eps -> 0 <= eps ->
  (forall p x, In p ps -> In x (dom p) -> exists r, In r (d_rows d) /\ at_col r p = Some x) ->
  NoDup order -> (forall s, In s order <-> exists r, In r (d_rows d) /\ at_col r v = Some s) ->
  (forall s p, In s order -> In p ps -> p <> col_name v s) ->
  exists b prob, learnt_from g d method prior ess b /\
    predict_probability order pg b test v = Ok (map (col_name v) order, map (fun r => map (fun s => CNum (prob r s)) order) (d_rows test)) /\
    forall s bin, In s order ->
      Rabs (surplus (d_rows test) v s (fun r => prob r s) bin) / INR (List.length (d_rows test)) <=
        2 * INR (choices dom ps) * eps + added method prior ess (List.length order) (choices dom ps) / INR (List.length (d_rows d)).
Proof. exact calibrated. Qed.
Print Assumptions C134_held_out.

(** On the training data the calibration is exact. *)
Theorem C134_training : forall g d prior ess v ps order pg, reached g -> named g -> acyclic (edges g) -> all_linked g -> edges g <> [] ->
  (forall x, In (LStr x) (nodes g) -> In x (d_cols d)) -> complete d -> In (LStr v) (nodes g) -> parents_are g v ps ->
  NoDup order -> (forall s, In s order <-> exists r, In r (d_rows d) /\ at_col r v = Some s) ->
  (forall s p, In s order -> In p ps -> p <> col_name v s) ->
  exists b prob, learnt_from g d "MaximumLikelihoodEstimator" prior ess b /\
    predict_probability order pg b d v = Ok (map (col_name v) order, map (fun r => map (fun s => CNum (prob r s)) order) (d_rows d)) /\
    forall s bin, In s order -> surplus (d_rows d) v s (fun r => prob r s) bin = 0.
Proof.
  intros g d prior ess v ps order pg Rg Nm AC AL NE Names CD Hv Hps NDo Ord NC. pose proof CD as (_ & NR & Full & _).
  assert (AC' := AC). destruct (to_learnt g d "MaximumLikelihoodEstimator" prior ess Rg Nm AC AL NE Names CD (or_introl eq_refl)) as (b0 & b1 & b2 & S & _ & _ & _ & R1 & _ & _ & _ & HE & HN & _).
  assert (Pn : forall p, In p ps -> In (LStr p) (nodes g)).
  { intros p Hp. apply HN. apply (parents_nodes b1 v (reached_net_ok b1 R1)). apply (Permutation_in _ (Permutation_sym (ssort_Perm _))), get_parents_In, HE, Hps. auto. }
  destruct (C134_held_out g d "MaximumLikelihoodEstimator" prior ess (fun u => map (fun r => seen (at_col r u)) (d_rows d)) v ps d 0 order pg) as (b & prob & L & Pp & H); auto; try lra.
  - left. auto.
  - split; auto. intros r u x Hr _ E. apply in_map_iff. exists r. rewrite E. auto.
  - intros u us f _ _. unfold Rminus. rewrite !Rplus_opp_r, Rabs_R0. lra.
  - intros p x Hp Hx. apply in_map_iff in Hx as (r & <- & Hr). exists r. split; auto. destruct (at_col r p) as [x|] eqn:E; [auto|]. destruct (Full r p Hr (Names p (Pn p Hp)) E).
  - exists b, prob. split; [auto|]. split; [auto|]. intros s bin Hs. specialize (H s bin Hs). unfold added in H. cbn [String.eqb Ascii.eqb Bool.eqb] in H. unfold Rdiv at 2 in H. rewrite Rmult_0_r, Rmult_0_l, Rplus_0_r in H.
    assert (N : 0 < INR (List.length (d_rows d))) by (apply (lt_INR 0); destruct (d_rows d); [congruence|cbn; lia]).
    set (x := surplus _ _ _ _ _) in *. assert (Z : Rabs x <= 0).
    { apply Rmult_le_reg_r with (/ INR (List.length (d_rows d))); [apply Rinv_0_lt_compat; auto|]. unfold Rdiv in H. lra. }
    pose proof (Rabs_pos x). unfold Rabs in *. destruct (Rcase_abs x); lra.
Qed.
Print Assumptions C134_training.

(** With a prior, the numbers differ by no more rows than the prior adds to the counts: for BDeu by at most the equivalent sample size. *)
Theorem C134_priors : forall g d method prior ess dom v ps order pg, reached g -> named g -> acyclic (edges g) -> all_linked g -> edges g <> [] ->
  complete d -> data_in g dom d -> sound_way method prior ess -> In (LStr v) (nodes g) -> parents_are g v ps ->
  (forall p x, In p ps -> In x (dom p) -> exists r, In r (d_rows d) /\ at_col r p = Some x) ->
  NoDup order -> (forall s, In s order <-> exists r, In r (d_rows d) /\ at_col r v = Some s) ->
  (forall s p, In s order -> In p ps -> p <> col_name v s) ->
  exists b prob, learnt_from g d method prior ess b /\
    predict_probability order pg b d v = Ok (map (col_name v) order, map (fun r => map (fun s => CNum (prob r s)) order) (d_rows d)) /\
    forall s bin, In s order -> Rabs (surplus (d_rows d) v s (fun r => prob r s) bin) <= added method prior ess (List.length order) (choices dom ps).
Proof.
  intros g d method prior ess dom v ps order pg Rg Nm AC AL NE CD DI SW Hv Hps Shown NDo Ord NC.
  destruct (C134_held_out g d method prior ess dom v ps d 0 order pg Rg Nm AC AL NE (proj1 DI) CD SW Hv Hps CD DI) as (b & prob & L & Pp & H); auto; try lra.
  - intros u us f _ _. unfold Rminus. rewrite !Rplus_opp_r, Rabs_R0. lra.
  - exists b, prob. split; [auto|]. split; [auto|]. intros s bin Hs. specialize (H s bin Hs). rewrite Rmult_0_r, Rplus_0_l in H.
    assert (N : 0 < INR (List.length (d_rows d))) by (destruct CD as (_ & NR & _); apply (lt_INR 0); destruct (d_rows d); [congruence|cbn; lia]).
    apply Rmult_le_reg_r with (/ INR (List.length (d_rows d))); [apply Rinv_0_lt_compat; auto|]. exact H.
Qed.
Print Assumptions C134_priors.

(** Training and test data drawn independently from a population: with enough of both, the probabilities are calibrated on the
    test data up to any tolerance, with probabilities as near to one as wanted.  The population need not have the
    independences of the structure. *)
Theorem C134_probably : forall g method prior ess order P dom v ps states pg eps eta, reached g -> named g -> acyclic (edges g) -> all_linked g -> edges g <> [] ->
  sound_way method prior ess -> parents_first g order -> weighted P -> values_in g dom P -> (forall u, In u order -> one_kind (dom u)) ->
  (forall f w, In (f, w) P -> 0 < w) -> (forall u x, In (LStr u) (nodes g) -> In x (dom u) -> exists f w, In (f, w) P /\ f u = x) ->
  In (LStr v) (nodes g) -> parents_are g v ps -> NoDup states -> (forall s, In s states <-> In s (dom v)) ->
  (forall s p, In s states -> In p ps -> p <> col_name v s) -> 0 < eps -> 0 < eta ->
  exists n0, forall n m, (n0 <= n)%nat -> (n0 <= m)%nat -> likely P n (1 - eta) (fun train => likely P m (1 - eta) (fun test =>
    exists b prob, learnt_from g (frame order train) method prior ess b /\
      predict_probability states pg b (frame order test) v =
        Ok (map (col_name v) states, map (fun r => map (fun s => CNum (prob r s)) states) (d_rows (frame order test))) /\
      forall s bin, In s states -> Rabs (surplus (d_rows (frame order test)) v s (fun r => prob r s) bin) / INR (List.length test) <= eps)).
Proof.
  intros g method prior ess order P dom v ps states pg eps eta Rg Nm AC AL NE SW PF WP VI OK Pos Dom Hv Hps NDs Sts NC He Ht.
  pose proof PF as (NDo & Ino & Pfst).
  assert (Po : forall p, In p ps -> In (LStr p) (nodes g)).
  { intros p Hp. apply Ino. apply Ino in Hv. apply in_split in Hv as (pre & post & E). rewrite E. apply in_or_app. left. apply (Pfst pre v post p E), Hps. auto. }
  destruct (small (fun (i : (string -> label) * R) x => x < share P (given (fst i) (v :: ps))) P) as (d2 & H2 & Small).
  { intros a x y Hx Le X. lra. }
  { intros [i w] Hi. cbn [fst]. assert (0 < share P (given i (v :: ps))) by (apply (share_individual P WP i w); eauto; apply shows_given; auto).
    exists (share P (given i (v :: ps)) / 2). split; lra. }
  pose proof (pos_INR (choices dom ps)) as Kp. set (M := added method prior ess (List.length states) (choices dom ps)).
  assert (HM : 0 <= M).
  { unfold M, added. destruct (String.eqb_spec method "MaximumLikelihoodEstimator") as [|N]; [lra|]. destruct SW as [|[_ [->|[-> (e & -> & Pe)]]]]; [contradiction|apply pos_INR|apply Rlt_le, realq_above; auto]. }
  set (K := 4 * INR (choices dom ps) + M + 1). assert (HK : 0 < K) by (unfold K; lra).
  assert (Q : 0 < eps / K) by (apply Rdiv_lt_0_compat; auto).
  set (delta := Rmin d2 (eps / K)). assert (D0 : 0 < delta) by (unfold delta; apply Rmin_glb_lt; auto).
  assert (D2 : delta <= d2) by apply Rmin_l. assert (D3 : delta <= eps / K) by apply Rmin_r.
  destruct (weak_law g order P dom Nm PF WP VI (fun d => complete d /\ data_in g dom d /\ near g P d delta /\ 1 <= delta * INR (List.length (d_rows d))) delta eta D0 Ht OK) as (n0 & W); [auto|].
  exists n0. intros n m Hn Hm. eapply likely_mono; [|apply (W n Hn)]. intros train (A1 & A2 & A3 & A4). eapply likely_mono; [|apply (W m Hm)]. intros test (B1 & B2 & B3 & _).
  assert (Shown : forall p x, In p (v :: ps) -> In x (dom p) -> exists r, In r (d_rows (frame order train)) /\ at_col r p = Some x).
  { intros p x Hp Hx. destruct (Dom p x) as (i & w & Hi & <-); [destruct Hp as [<-|Hp]; auto|auto|]. pose proof (Small _ Hi) as G. cbn [fst] in G.
    destruct (A3 v ps i Hv Hps) as [_ X]. rewrite rows_share_agree in X. set (d := frame order train) in *.
    destruct (agree (d_rows d) i (v :: ps)) as [|k] eqn:Ea.
    { exfalso. cbn [INR] in X. unfold Rdiv in X. rewrite Rmult_0_l in X. unfold Rminus in X. rewrite Rplus_0_l, Rabs_Ropp, Rabs_pos_eq in X by lra. lra. }
    unfold agree in Ea. destruct (filter (fun r => forallb (fun u => holds r u (i u)) (v :: ps)) (d_rows d)) as [|r l] eqn:Qf; [cbn in Ea; lia|].
    assert (Hr : In r (r :: l)) by (left; auto). rewrite <- Qf in Hr. apply filter_In in Hr as [Hr Y]. exists r. split; auto.
    rewrite forallb_forall in Y. specialize (Y p Hp). unfold holds in Y. destruct (at_col r p) as [y|]; [|discriminate]. destruct (label_eqb_spec y (i p)); [subst; auto|discriminate]. }
  destruct (C134_held_out g (frame order train) method prior ess dom v ps (frame order test) (2 * delta) states pg Rg Nm AC AL NE (proj1 A2) A1 SW Hv Hps B1 B2) as (b & prob & L & Pp & H); auto.
  - intros u us f Hu Hus. destruct (A3 u us f Hu Hus) as [a1 a2]. destruct (B3 u us f Hu Hus) as [b1 b2].
    split; apply Rabs_le; apply abs_le in a1, a2, b1, b2; lra.
  - lra.
  - intros p x Hp. apply Shown. right. auto.
  - intros s. rewrite Sts. split; [intros X; apply Shown; [left; auto|auto]|]. intros (r & Hr & Er). apply (proj2 A2 r v s); auto.
  - exists b, prob. split; [auto|]. split; [auto|]. intros s bin Hs. specialize (H s bin Hs). cbn [frame d_rows] in H |- *. rewrite map_length in H.
    eapply Rle_trans; [exact H|]. apply Rle_trans with (K * (eps / K)); [|right; field; lra]. fold M.
    cbn [frame d_rows] in A4. rewrite map_length in A4. set (n' := INR (List.length train)) in *.
    assert (Pn : 0 < n') by (assert (0 <= n') by apply pos_INR; destruct (Req_dec n' 0) as [Z|]; [rewrite Z, Rmult_0_r in A4; lra|lra]).
    assert (Mn : M / n' <= M * delta).
    { unfold Rdiv. apply Rmult_le_compat_l; auto. apply Rmult_le_reg_r with n'; auto. rewrite Rinv_l by lra. auto. }
    apply Rle_trans with (K * delta); [|apply Rmult_le_compat_l; lra]. unfold K. rewrite map_length. fold n'. lra.
Qed.
Print Assumptions C134_probably.

(** ** Cases *)
Local Open Scope Qc_scope.
Definition thirds (r : list (string * option label)) (s : label) : Qc :=
  if holds r "a" (LInt 0) then (if label_eqb s (LInt 0) then Q2Qc (3 # 4) else Q2Qc (1 # 4)) else (if label_eqb s (LInt 0) then Q2Qc (1 # 3) else Q2Qc (2 # 3)).
Local Close Scope Qc_scope.

(** With a prior the probabilities are not calibrated on the training data. *)
Theorem C134_prior_refuted : exists g d b prob order s, reached g /\ named g /\ acyclic (edges g) /\ all_linked g /\ edges g <> [] /\ complete d /\
  learnt_from g d "BayesianEstimator" (Some "K2") None b /\
  (forall pg, predict_probability order pg b d "b" = Ok (map (col_name "b") order, map (fun r => map (fun s => CNum (prob r s)) order) (d_rows d))) /\
  In s order /\ surplus (d_rows d) "b" s (fun r => prob r s) (fun _ => true) <> 0.
Proof.
  exists couple, twins, (fit_to couple twins bay (Some "K2") None), thirds, [LInt 0; LInt 1], (LInt 0).
  split; [apply built|]. split; [exists ["a"; "b"]; reflexivity|].
  destruct (fine [("a", "b")]) as [A B]; [reflexivity|vm_compute; lia|]. split; [exact A|]. split; [exact B|]. split; [discriminate|]. split.
  { split; [repeat constructor; cbn; intuition discriminate|]. split; [discriminate|]. split.
    - intros r c H K. cbn in H, K. decompose [or] H; decompose [or] K; subst; try discriminate; tauto.
    - intros c K. left. intros x H. cbn in K. decompose [or] K; subst; cbn in H; decompose [or] H; subst; eauto; tauto. }
  split; [unfold learnt_from; eexists; eexists; repeat split; vm_compute; reflexivity|]. split.
  { intros pg. vm_compute. repeat f_equal; apply Qc_is_canon; reflexivity. }
  split; [left; auto|]. unfold surplus, total. cbn. unfold thirds, realq. cbn. unfold Q2R. cbn. lra.
Qed.
Print Assumptions C134_prior_refuted.

(** The chain a -> b -> c and seven rows.  Where b = 0, c = 1 is predicted with probability 1/2, and two of these four rows show it; else with 2/3, and two of three rows show it. *)
Example C134_run :
  (exists out, predict_probability [LInt 0; LInt 1] (fun _ _ => []) (fit_to chain mixed mle None None) mixed "c" = Ok (["c_0"; "c_1"], out) /\
    map (map (fun c => match c with CNum q => this q | _ => 0%Q end)) out = repeat [1 # 2; 1 # 2]%Q 4 ++ repeat [1 # 3; 2 # 3]%Q 3) /\
  surplus (d_rows mixed) "c" (LInt 1) (fun r => if holds r "b" (LInt 0) then Q2Qc (1 # 2) else Q2Qc (2 # 3)) (fun q => Qc_eq_bool q (Q2Qc (2 # 3))) = 0.
Proof.
  split; [eexists; split; [vm_compute; reflexivity|vm_compute; reflexivity]|]. unfold surplus, total, realq. cbn. unfold Q2R. cbn. lra.
Qed.

(** The hypotheses are met for that network; those of the other theorems by [C133_met] and [C130_met]. *)
Example C134_met : complete mixed /\ In (LStr "c") (nodes chain) /\ parents_are chain "c" ["b"] /\ NoDup [LInt 0; LInt 1] /\
  (forall s, In s [LInt 0; LInt 1] <-> exists r, In r (d_rows mixed) /\ at_col r "c" = Some s) /\
  (forall s p, In s [LInt 0; LInt 1] -> In p ["b"] -> p <> col_name "c" s) /\ data_in chain bits mixed /\ alike chain mixed mixed 0 /\
  (forall p x, In p ["b"] -> In x (bits p) -> exists r, In r (d_rows mixed) /\ at_col r p = Some x) /\
  (forall s, In s [LInt 0; LInt 1] <-> In s (bits "c")).
Proof.
  destruct C133_met as (_ & _ & A & B & _ & C & _). split; [auto|]. split; [cbn; auto|]. split; [auto|]. split; [repeat constructor; cbn; intuition discriminate|]. split.
  { intros s. split.
    - intros [<-|[<-|[]]]; [exists (row 0 0 0)|exists (row 0 0 1)]; cbn; auto.
    - intros (r & Hr & E). cbn in Hr. decompose [or] Hr; subst; try tauto; cbn in E; injection E as <-; cbn; auto. }
  split; [intros s p [<-|[<-|[]]] [<-|[]]; vm_compute; discriminate|]. split; [auto|]. split.
  { intros u us f _ _. unfold Rminus. rewrite !Rplus_opp_r, Rabs_R0. lra. }
  split; [|intros s; cbn; tauto]. intros p x [<-|[]] [<-|[<-|[]]]; [exists (row 0 0 0)|exists (row 1 1 1)]; cbn; auto 10.
Qed.
