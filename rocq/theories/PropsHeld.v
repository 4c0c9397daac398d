(** * PropsHeld: property C133 (the accuracy on held-out data tells the accuracy in the population). *)
From Coq Require Import List Bool Arith ZArith Lia String QArith Qcanon Permutation Reals Lra.
From Verif Require Import Base QcX Digraph SmModel SmProofs SmHist SmThms NetModel NetProofs NetFit NetThms NetBridge NetEquiv NetMoral NetMarkov PropsEquiv PropsMarkov.
From Verif Require Import OrdProofs EvalModel MetricsModel MetricsThms PropsMetrics AcycLink NetConsist NetSample PropsConsist PropsDraws VoteProofs PropsVote HeldProofs.
Import ListNotations.
Local Open Scope string_scope.
Local Open Scope list_scope.
Local Open Scope R_scope.

(** [hits] of the predictions among the rows; [right]: their share in the population [P].  The training data need not be near the
    population, they only have to show the values of the parents of [v]; the test data are within [eps] of it. *)
Theorem C133_held_out : forall g d method prior ess P dom v ps test eps cols pg, reached g -> named g -> acyclic (edges g) -> all_linked g -> edges g <> [] ->
  (forall x, In (LStr x) (nodes g) -> In x (d_cols d)) -> complete d -> sound_way method prior ess -> In (LStr v) (nodes g) -> parents_are g v ps ->
  values_in g dom P -> complete test -> data_in g dom test -> near g P test eps ->
  (forall p x, In p ps -> In x (dom p) -> exists r, In r (d_rows d) /\ at_col r p = Some x) -> incl ps cols -> 0 <= eps ->
  exists b out outP, learnt_from g d method prior ess b /\ predict pg b test v = Ok out /\ predict pg b (frame cols (map fst P)) v = Ok outP /\
    Rabs (INR (hits (d_rows test) v out) / INR (List.length (d_rows test)) - right P v outP) <= INR (choices dom ps) * eps.
Proof. exact held_out. Qed.
Print Assumptions C133_held_out.

(** What classification_report shows for the test data is the share of the rows predicted correctly: the recall in the row
    "weighted avg", and the accuracy where it is shown. *)
Theorem C133_report : forall g d method prior ess dom v ps test b out pg, reached g -> named g -> acyclic (edges g) -> all_linked g -> edges g <> [] ->
  complete d -> data_in g dom d -> sound_way method prior ess -> In (LStr v) (nodes g) -> parents_are g v ps ->
  complete test -> data_in g dom test -> one_kind (dom v) ->
  (forall p x, In p (v :: ps) -> In x (dom p) -> exists r, In r (d_rows d) /\ at_col r p = Some x) ->
  learnt_from g d method prior ess b -> predict pg b test v = Ok out ->
  exists rep W, classification_report pg b test v = Ok rep /\ dget String.eqb rep "weighted avg" = Some (EMetric W) /\
    realq (m_recall W) = INR (hits (d_rows test) v out) / INR (List.length (d_rows test)) /\
    (forall a, dget String.eqb rep "accuracy" = Some (ENumber a) -> realq a = INR (hits (d_rows test) v out) / INR (List.length (d_rows test))).
Proof.
  intros g d method prior ess dom v ps test b out pg Rg Nm AC AL NE CD [DC DI] SW Hv [ND Hpe] CT [TC TI] OK Shown (b0 & b1 & E0 & E1 & E2) Po.
  destruct (to_learnt g d method prior ess Rg Nm AC AL NE DC CD SW) as (c0 & c1 & c2 & S & F0 & F1 & F2 & R1 & NS & Ne & Ic & HE & HN & Dec & _).
  rewrite E0 in F0. injection F0 as <-. rewrite E1 in F1. injection F1 as <-. rewrite E2 in F2. injection F2 as <-.
  destruct (fit_frames b1 d method prior ess S R1 NS Ne Ic SW) as (b' & E2' & En & Ee & Es & Ec). rewrite E2 in E2'. injection E2' as <-.
  set (f := fitted_frame_of S b1 d method prior ess v). set (qs := ssort (get_parents b1 v)).
  assert (Hq : forall p, In p qs <-> In p ps).
  { intros p. rewrite Hpe, <- HE, <- get_parents_In. split; apply Permutation_in; [|apply Permutation_sym]; apply ssort_Perm. }
  assert (Hqn : incl qs (b_nodes b1)) by (apply parents_nodes, reached_net_ok; auto).
  assert (Fit : fitted b S (map (fun v => (v, fitted_frame_of S b1 d method prior ess v)) (ssort (b_nodes b1)))).
  { exists b1, d, method, prior, ess. repeat (split; [assumption|]). auto. }
  assert (Iv : In (v, f) (map (fun v => (v, fitted_frame_of S b1 d method prior ess v)) (ssort (b_nodes b1)))).
  { apply in_map_iff. exists v. split; [auto|]. apply (Permutation_in _ (Permutation_sym (ssort_Perm _))), HN. auto. }
  destruct CT as (NDt & NRt & Full & _).
  set (ts := map (fun r => seen (at_col r v)) (d_rows test)).
  assert (At : forall r u, In r (d_rows test) -> In (LStr u) (nodes g) -> exists x, at_col r u = Some x /\ In x (dom u)).
  { intros r u Hr Hu. destruct (at_col r u) as [x|] eqn:Ex; [exists x; split; [auto|apply (TI r u x); auto]|destruct (Full r u Hr (TC u Hu) Ex)]. }
  assert (Ets : map (fun r => at_col r v) (d_rows test) = map Some ts).
  { unfold ts. rewrite map_map. apply map_ext_in. intros r Hr. destruct (At r v Hr Hv) as (x & -> & _). auto. }
  assert (Its : forall t, In t ts -> In t (dom v)).
  { intros t Ht. apply in_map_iff in Ht as (r & <- & Hr). destruct (At r v Hr Hv) as (x & -> & Dx). auto. }
  assert (Decl : forall t, In t (dom v) <-> In t (declared S v)).
  { intros t. rewrite Dec by (apply DC; auto). split; [intros H; apply Shown; [left; auto|auto]|]. intros (r & Hr & Er). apply (DI r v t); auto. }
  assert (OKt : one_kind (ts ++ declared S v)).
  { apply (one_kind_sub (dom v)); auto. intros x Hx. apply in_app_or in Hx as [Hx|Hx]; [auto|apply Decl; auto]. }
  destruct (C98_report b S _ test v f pg ts Fit Iv) as (preds & rep & row & Pp & Ll & Rp & _ & _ & Acc); auto.
  { intros p Hp. apply TC, HN, Hqn. exact Hp. }
  { intros r Hr. unfold f, fitted_frame_of. cbn [f_names f_columns]. fold qs.
    assert (Il : incl qs qs) by (intros x; auto). revert Il. generalize qs at 1 3 4. intros l. induction l as [|p l IH]; intros Il; [exists []; split; [constructor|left; auto]|].
    destruct IH as (u & A & B); [intros x Hx; apply Il; right; auto|]. assert (Hp : In p qs) by (apply Il; left; auto).
    destruct (At r p Hr (proj1 (HN p) (Hqn p Hp))) as (x & Ex & Dx). exists (x :: u). split; [constructor; auto|]. apply product_In. cbn. constructor; [|apply product_In; auto].
    apply Dec; [apply Ic, Hqn; auto|]. apply Shown; auto. right. apply Hq. auto. }
  rewrite Po in Pp. injection Pp as <-.
  assert (Acc' := Acc (fun t Ht => proj1 (Decl t) (Its t Ht))). clear Acc. cbn zeta in Acc'. destruct Acc' as (A1 & A2 & W & EW & RW & _).
  set (q := (Qc_of_nat (tally (fun x => label_eqb (fst x) (snd x)) (combine ts out)) / Qc_of_nat (List.length (d_rows test)))%Qc) in *.
  assert (Eq : realq q = INR (hits (d_rows test) v out) / INR (List.length (d_rows test))).
  { unfold q. assert (Nz : Qc_of_nat (List.length (d_rows test)) <> 0%Qc).
    { intros X. apply (f_equal realq) in X. rewrite realq_nat, realq_0 in X. destruct (d_rows test); [congruence|]. cbn [List.length] in X. pose proof (pos_INR (List.length l0)) as Y. rewrite S_INR in X. lra. }
    rewrite realq_div by auto. rewrite !realq_nat. f_equal. f_equal. unfold tally, hits, ts.
    assert (Ah : forall r x, In r (d_rows test) -> holds r v x = label_eqb (seen (at_col r v)) x).
    { intros r x Hr. apply holds_seen. destruct (At r v Hr Hv) as (y & -> & _). discriminate. }
    clear -Ah. revert out. induction (d_rows test) as [|r l IH]; intros [|x out]; cbn; auto. rewrite Ah by (left; auto).
    destruct (label_eqb (seen (at_col r v)) x); cbn; rewrite IH by (intros; apply Ah; right; auto); auto. }
  exists rep, W. split; [auto|]. split; [auto|]. split; [rewrite RW; auto|].
  intros a Ea. assert (Dl : forall x y : label, {x = y} + {x <> y}) by (intros x y; destruct (label_eqb_spec x y); auto).
  destruct (Forall_Exists_dec (fun s => In s ts \/ In s out)) with (l := declared S v) as [Fa|Ex].
  - intros s. destruct (in_dec Dl s ts); [left; auto|]. destruct (in_dec Dl s out); [left; auto|right; tauto].
  - rewrite Forall_forall in Fa. destruct (A1 Fa) as [A _]. rewrite A in Ea. injection Ea as <-. auto.
  - apply Exists_exists in Ex as (s & Hs & Ns). destruct A2 as [A _]; [exists s; split; [auto|tauto]|]. congruence.
Qed.
Print Assumptions C133_report.

(** If the training and the test data are near the population, the share of right predictions on the test data is within [eps] of the
    best that a rule looking at the nodes before [v] can reach in the population. *)
Theorem C133_best : forall g method prior ess order P dom pre v post pg eps, reached g -> named g -> acyclic (edges g) -> all_linked g -> edges g <> [] ->
  sound_way method prior ess -> parents_first g order -> weighted P -> structured g P order -> values_in g dom P ->
  (forall f w, In (f, w) P -> 0 < w) -> (forall u x, In (LStr u) (nodes g) -> In x (dom u) -> exists f w, In (f, w) P /\ f u = x) ->
  order = pre ++ v :: post -> 0 < eps ->
  exists delta, 0 < delta /\ forall d test, complete d -> data_in g dom d -> near g P d delta -> complete test -> data_in g dom test -> near g P test delta ->
    exists b out best, learnt_from g d method prior ess b /\ predict pg b test v = Ok out /\
      Rabs (INR (hits (d_rows test) v out) / INR (List.length (d_rows test)) - best) <= eps /\
      (exists guess, predict pg b (frame order (map fst P)) v = Ok guess /\ right P v guess = best) /\
      forall rule, looks_at pre rule -> right P v (map rule (map fst P)) <= best.
Proof.
  intros g method prior ess order P dom pre v post pg eps Rg Nm AC AL NE SW PF WP ST VI Pos Dom Eo He.
  destruct (parents_exist g v Nm) as (ps & Hps). pose proof PF as (NDo & Ino & Pfst).
  assert (Hv : In (LStr v) (nodes g)) by (apply Ino; rewrite Eo; apply in_or_app; right; left; auto).
  assert (Pp : incl ps pre) by (intros p Hp; apply (Pfst pre v post p Eo), Hps; auto).
  assert (Po : incl ps order) by (intros p Hp; rewrite Eo; apply in_or_app; left; auto).
  destruct (C130_best g method prior ess order P dom pre v post order pg Rg Nm AC AL NE SW PF WP ST VI Pos Eo) as (d1 & H1 & B).
  { intros p Hp. apply Po, Hps. auto. }
  destruct (small (fun (i : (string -> label) * R) x => x < share P (given (fst i) ps)) P) as (d2 & H2 & Small).
  { intros a x y Hx Le X. lra. }
  { intros [i w] Hi. cbn [fst]. assert (0 < share P (given i ps)) by (apply (share_individual P WP i w); eauto; apply shows_given; auto).
    exists (share P (given i ps) / 2). split; lra. }
  pose proof (pos_INR (choices dom ps)) as Kp. set (K := INR (choices dom ps) + 1). assert (HK : 0 < K) by (unfold K; lra).
  set (delta := Rmin (Rmin d1 d2) (eps / K)).
  assert (Q : 0 < eps / K) by (apply Rdiv_lt_0_compat; auto).
  assert (D0 : 0 < delta) by (unfold delta; repeat apply Rmin_glb_lt; auto).
  assert (D1 : delta <= d1 /\ delta <= d2 /\ delta <= eps / K).
  { unfold delta. pose proof (Rmin_l (Rmin d1 d2) (eps / K)). pose proof (Rmin_r (Rmin d1 d2) (eps / K)). pose proof (Rmin_l d1 d2). pose proof (Rmin_r d1 d2). lra. }
  destruct D1 as (D1 & D2 & D3). exists delta. split; auto. intros d test CD DI Nd CT TI Nt.
  assert (Nd1 : near g P d d1) by (intros u us f Hu Hus; destruct (Nd u us f Hu Hus); split; lra).
  destruct (B d CD DI Nd1) as (b & guess & L & Pg & Best).
  assert (Shown : forall p x, In p ps -> In x (dom p) -> exists r, In r (d_rows d) /\ at_col r p = Some x).
  { intros p x Hp Hx. destruct (Dom p x) as (i & w & Hi & <-); [apply Ino; auto|auto|]. pose proof (Small _ Hi) as G. cbn [fst] in G.
    destruct (Nd v ps i Hv Hps) as [X _]. rewrite rows_share_agree in X.
    destruct (agree (d_rows d) i ps) as [|n] eqn:Ea.
    { exfalso. cbn in X. unfold Rdiv in X. rewrite Rmult_0_l in X. unfold Rminus in X. rewrite Rplus_0_l, Rabs_Ropp, Rabs_pos_eq in X by lra. lra. }
    unfold agree in Ea. destruct (filter (fun r => forallb (fun u => holds r u (i u)) ps) (d_rows d)) as [|r l] eqn:Qf; [cbn in Ea; lia|].
    assert (Hr : In r (r :: l)) by (left; auto). rewrite <- Qf in Hr. apply filter_In in Hr as [Hr Y]. exists r. split; auto.
    rewrite forallb_forall in Y. specialize (Y p Hp). unfold holds in Y. destruct (at_col r p) as [y|]; [|discriminate]. destruct (label_eqb_spec y (i p)); [subst; auto|discriminate]. }
  destruct (held_out g d method prior ess P dom v ps test delta order pg Rg Nm AC AL NE (proj1 DI) CD SW Hv Hps VI CT TI Nt Shown Po (Rlt_le _ _ D0)) as (b' & out & guess' & L' & Pt & Pg' & Le).
  assert (b' = b).
  { destruct L as (c0 & c1 & F0 & F1 & F2). destruct L' as (e0 & e1 & G0 & G1 & G2). rewrite F0 in G0. injection G0 as <-. rewrite F1 in G1. injection G1 as <-. rewrite F2 in G2. injection G2 as <-. auto. }
  subst b'. rewrite Pg in Pg'. injection Pg' as <-.
  exists b, out, (right P v guess). split; [auto|]. split; [auto|]. split; [|split; [eauto|auto]].
  eapply Rle_trans; [exact Le|]. apply Rle_trans with (K * (eps / K)); [|right; field; lra].
  apply Rmult_le_compat; [apply pos_INR|lra|unfold K; lra|auto].
Qed.
Print Assumptions C133_best.

Lemma likely_mono P n p (Q Q' : list (string -> label) -> Prop) : (forall s, Q s -> Q' s) -> likely P n p Q -> likely P n p Q'.
Proof. intros I (good & A & B). exists good. split; auto. Qed.

(** Independent draws, some for training and others for the test: with enough of both, and with probabilities as near to one as wanted. *)
Theorem C133_probably : forall g method prior ess order P dom pre v post pg eps eta, reached g -> named g -> acyclic (edges g) -> all_linked g -> edges g <> [] ->
  sound_way method prior ess -> parents_first g order -> weighted P -> structured g P order -> values_in g dom P -> (forall u, In u order -> one_kind (dom u)) ->
  (forall f w, In (f, w) P -> 0 < w) -> (forall u x, In (LStr u) (nodes g) -> In x (dom u) -> exists f w, In (f, w) P /\ f u = x) ->
  order = pre ++ v :: post -> 0 < eps -> 0 < eta ->
  exists n0, forall n m, (n0 <= n)%nat -> (n0 <= m)%nat -> likely P n (1 - eta) (fun train => likely P m (1 - eta) (fun test =>
    exists b out best, learnt_from g (frame order train) method prior ess b /\ predict pg b (frame order test) v = Ok out /\
      Rabs (INR (hits (d_rows (frame order test)) v out) / INR (List.length test) - best) <= eps /\
      (exists guess, predict pg b (frame order (map fst P)) v = Ok guess /\ right P v guess = best) /\
      forall rule, looks_at pre rule -> right P v (map rule (map fst P)) <= best)).
Proof.
  intros g method prior ess order P dom pre v post pg eps eta Rg Nm AC AL NE SW PF WP ST VI OK Pos Dom Eo He Ht.
  destruct (C133_best g method prior ess order P dom pre v post pg eps Rg Nm AC AL NE SW PF WP ST VI Pos Dom Eo He) as (delta & Hd & H).
  destruct (weak_law g order P dom Nm PF WP VI (fun d => complete d /\ data_in g dom d /\ near g P d delta) delta eta Hd Ht OK) as (n0 & W); [auto|].
  exists n0. intros n m Hn Hm. eapply likely_mono; [|apply (W n Hn)]. intros train (A1 & A2 & A3). eapply likely_mono; [|apply (W m Hm)]. intros test (B1 & B2 & B3).
  destruct (H _ _ A1 A2 A3 B1 B2 B3) as (b & out & best & L & Pt & Le & R). exists b, out, best. split; [auto|]. split; [auto|]. split; [|auto].
  cbn [frame d_rows] in Le |- *. rewrite map_length in Le. exact Le.
Qed.
Print Assumptions C133_probably.

(** ** Cases *)

(** A network for a -> b -> c, trained on the five rows of [survey2], predicts c = 0 always.  It is right for three of these
    five rows, for three of the seven test rows [mixed] and for three sevenths of the people that these seven rows represent. *)
Example C133_run :
  predict never (fit_to chain survey2 mle None None) survey2 "c" = Ok (repeat (LInt 0) 5) /\ hits (d_rows survey2) "c" (repeat (LInt 0) 5) = 3%nat /\
  predict never (fit_to chain survey2 mle None None) mixed "c" = Ok (repeat (LInt 0) 7) /\ hits (d_rows mixed) "c" (repeat (LInt 0) 7) = 3%nat /\
  predict never (fit_to chain survey2 mle None None) (frame ["a"; "b"; "c"] (map fst people)) "c" = Ok (repeat (LInt 0) 7) /\ right people "c" (repeat (LInt 0) 7) = 3 / 7 /\
  exists rep W, classification_report never (fit_to chain survey2 mle None None) mixed "c" = Ok rep /\ dget String.eqb rep "weighted avg" = Some (EMetric W) /\
    this (m_recall W) = (3 # 7)%Q /\ option_map (fun e => match e with ENumber a => this a | _ => 0%Q end) (dget String.eqb rep "accuracy") = Some (3 # 7)%Q.
Proof.
  do 5 (split; [vm_compute; reflexivity|]). split; [unfold right, people, population_of, total; cbn; lra|].
  eexists. eexists. split; [vm_compute; reflexivity|]. repeat split; vm_compute; reflexivity.
Qed.

(** The hypotheses are met by that training data, with the test data exactly like the population. *)
Example C133_met : complete survey2 /\ data_in chain bits survey2 /\ complete mixed /\ data_in chain bits mixed /\ near chain people mixed 0 /\ parents_are chain "c" ["b"] /\
  (forall p x, In p ["c"; "b"] -> In x (bits p) -> exists r, In r (d_rows survey2) /\ at_col r p = Some x) /\ one_kind (bits "c") /\ choices bits ["b"] = 2%nat /\
  (forall u x, In (LStr u) (nodes chain) -> In x (bits u) -> exists f w, In (f, w) people /\ f u = x).
Proof.
  destruct C103_met as [_ Cm]. destruct C126_met as (_ & _ & _ & _ & OK & _).
  assert (Di : forall d, d = survey2 \/ d = mixed -> data_in chain bits d).
  { intros d Hd. split; [intros x Hx; apply chain_col in Hx; destruct Hd; subst; exact Hx|]. intros r v x Hr Hv E.
    destruct Hd; subst d; cbn in Hr, Hv; decompose [or] Hr; decompose [or] Hv; try tauto; subst; match goal with X : LStr _ = LStr _ |- _ => injection X as <- end; cbn in E; injection E as <-; cbn; auto. }
  split.
  { split; [repeat constructor; cbn; intuition discriminate|]. split; [discriminate|]. split.
    - intros r c H K. cbn in H, K. decompose [or] H; decompose [or] K; subst; try discriminate; tauto.
    - intros c K. left. intros x H. cbn in K. decompose [or] K; subst; cbn in H; decompose [or] H; subst; eauto; tauto. }
  split; [apply Di; auto|]. split; [auto|]. split; [apply Di; auto|]. split.
  { intros v ps f Hv Hp. unfold people.
    rewrite !share_of; auto; [|intros u x [[= <- <-]|H]; [apply chain_col; auto|apply (chain_cols f ps v Hp u x H)]|apply (chain_cols f ps v Hp)].
    unfold Rminus. rewrite !Rplus_opp_r, Rabs_R0. lra. }
  split; [split; [repeat constructor; auto|]; intros p; cbn; intuition congruence|]. split.
  { intros p x [<-|[<-|[]]] [<-|[<-|[]]]; cbn;
      [exists (row 0 0 0)|exists (row 1 1 1)|exists (row 0 0 0)|exists (row 1 1 1)]; cbn; auto 8. }
  split; [apply OK; cbn; auto|]. split; [reflexivity|].
  intros u x Hu Hx. assert (Hr : In (row 0 0 0) (d_rows mixed) /\ In (row 1 1 1) (d_rows mixed)) by (cbn; auto 10).
  assert (Ip : forall r, In r (d_rows mixed) -> In (individual r, / INR 7) people) by (intros r Hr'; unfold people, population_of; apply in_map_iff; exists r; split; [reflexivity|exact Hr']).
  destruct Hr as [H0 H1]. cbn in Hu. destruct Hx as [<-|[<-|[]]].
  - exists (individual (row 0 0 0)), (/ INR 7). split; [apply Ip; auto|]. destruct Hu as [E|[E|[E|[]]]]; injection E as <-; reflexivity.
  - exists (individual (row 1 1 1)), (/ INR 7). split; [apply Ip; auto|]. destruct Hu as [E|[E|[E|[]]]]; injection E as <-; reflexivity.
Qed.
