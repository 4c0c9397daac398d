(** * BrierHeld: the squared error of predicted probabilities on other data than the training data. *)
From Coq Require Import List Bool Arith ZArith Lia String QArith Qcanon Permutation Reals Lra.
From Verif Require Import Base QcX Digraph SmModel SmProofs SmHist SmThms NetModel NetProofs NetFit NetThms NetBridge NetEquiv NetMoral NetMarkov.
From Verif Require Import AcycLink OrdProofs FitBound NetBayes NetConsist NetSample VoteProofs HeldProofs CalibProofs BrierProofs.
Import ListNotations.
Local Open Scope list_scope.
Local Open Scope R_scope.

(** ** Weighted sums over the combinations of the parents' values *)
Lemma rebuilt qs r p : In p qs -> (forall c, In c qs -> at_col r c <> None) -> at_col r p = at_col (map (fun pu => (fst pu, Some (snd pu))) (combine qs (row_key qs r))) p.
Proof.
  intros Hp Fr. unfold row_key. induction qs as [|c l IH]; [destruct Hp|].
  cbn [map combine]. unfold at_col at 2. cbn [fst snd dget]. destruct (String.eqb_spec p c) as [->|N].
  - destruct (at_col r c) as [x|] eqn:Ex; [auto|destruct (Fr c (or_introl eq_refl) Ex)].
  - destruct Hp as [Hp|Hp]; [congruence|]. rewrite IH by (auto; intros; apply Fr; right; auto). reflexivity.
Qed.

Lemma weight_groups rows v s ps (w : list label -> R) (Q : list label -> Qc) L : NoDup L -> (forall u, In u L -> List.length u = List.length ps) ->
  (forall r c, In r rows -> In c ps -> at_col r c <> None) -> (forall r, In r rows -> In (row_key ps r) L) ->
  total (map (fun r => w (row_key ps r) * (shown_state r v s - realq (Q (row_key ps r)))) rows) =
  total (map (fun u => w u * (INR (occurrences_with rows v s ps u) - realq (Q u) * INR (occurrences rows ps u))) L).
Proof.
  intros ND Len. induction rows as [|r rows IH]; intros Full Keys.
  - unfold occurrences, occurrences_with, total. cbn. clear. induction L as [|u L IHL]; cbn; auto. rewrite <- IHL. lra.
  - cbn [map]. change (total (?x :: ?l)) with (x + total l). rewrite (IH (fun x c H => Full x c (or_intror H)) (fun x H => Keys x (or_intror H))).
    assert (I : In (row_key ps r) L) by (apply Keys; left; auto).
    set (F := fun u => w u * (shown_state r v s - realq (Q u))).
    change (w (row_key ps r) * (shown_state r v s - realq (Q (row_key ps r)))) with (F (row_key ps r)).
    assert (One : F (row_key ps r) = total (map (fun u => if lkeqb (row_key ps r) u then F u else 0) L)).
    { clear -ND I. assert (No : forall M, ~ In (row_key ps r) M -> total (map (fun u => if lkeqb (row_key ps r) u then F u else 0) M) = 0).
      { unfold total. intros M. induction M as [|k M IHM]; intros N; cbn; auto. unfold lkeqb. destruct (list_eqb_spec (row_key ps r) k) as [E|E]; [destruct N; left; auto|]. unfold lkeqb in IHM. rewrite IHM; [lra|intros X; apply N; right; auto]. }
      induction L as [|k M IHM]; [destruct I|]. apply NoDup_cons_iff in ND as [N ND]. unfold total in *. cbn [map fold_right]. unfold lkeqb at 1. destruct (list_eqb_spec (row_key ps r) k) as [E|E].
      - rewrite No by (rewrite E; auto). rewrite E. lra.
      - destruct I as [I|I]; [congruence|]. rewrite <- IHM by auto. lra. }
    rewrite One, <- total_add. f_equal. apply map_ext_in. intros u Hu. unfold F, occurrences_with, occurrences, shown_state. cbn [filter].
    rewrite (key_holds ps r u (Len u Hu)) by (intros; apply Full; auto; left; auto).
    destruct (lkeqb (row_key ps r) u), (holds r v s); cbn [andb List.length]; rewrite ?S_INR; ring.
Qed.

(** Weighted differences between what the rows show and what is predicted add up to little. *)
Theorem weighed g d method prior ess dom v ps test eps order pg : reached g -> named g -> acyclic (edges g) -> all_linked g -> edges g <> [] ->
  (forall x, In (LStr x) (nodes g) -> In x (d_cols d)) -> complete d -> sound_way method prior ess -> In (LStr v) (nodes g) -> parents_are g v ps ->
  complete test -> data_in g dom test -> alike g d test eps -> 0 <= eps ->
  (forall p x, In p ps -> In x (dom p) -> exists r, In r (d_rows d) /\ at_col r p = Some x) ->
  NoDup order -> (forall s, In s order <-> exists r, In r (d_rows d) /\ at_col r v = Some s) ->
  (forall s p, In s order -> In p ps -> p <> col_name v s) ->
  exists b prob, learnt_from g d method prior ess b /\
    predict_probability order pg b test v = Ok (map (col_name v) order, map (fun r => map (fun s => CNum (prob r s)) order) (d_rows test)) /\
    looks_at_parents g v (fun r s => realq (prob r s)) /\ (forall r s, In r (d_rows test) -> In s order -> 0 <= realq (prob r s) <= 1) /\
    forall s wt, In s order -> (forall r r', (forall p, In (LStr p, LStr v) (edges g) -> at_col r p = at_col r' p) -> wt r = wt r') -> (forall r, In r (d_rows test) -> -1 <= wt r <= 1) ->
      Rabs (total (map (fun r => wt r * (shown_state r v s - realq (prob r s))) (d_rows test))) / INR (List.length (d_rows test)) <=
        2 * INR (choices dom ps) * eps + added method prior ess (List.length order) (choices dom ps) / INR (List.length (d_rows d)).
Proof.
  intros Rg Nm AC AL NE Names CD SW Hv Hps CT [TC TI] Al He Shown NDo Ord NC.
  destruct (to_learnt g d _ prior ess Rg Nm AC AL NE Names CD SW) as (b0 & b1 & b2 & S & E0 & E1 & E2 & R1 & NS & Ne & Ic & HE & HN & Dec & Us).
  set (qs := ssort (get_parents b1 v)). pose proof Hps as [ND Hpe].
  assert (Hq : forall p, In p qs <-> In p ps).
  { intros p. rewrite Hpe, <- HE, <- get_parents_In. split; apply Permutation_in; [|apply Permutation_sym]; apply ssort_Perm. }
  assert (NDq : NoDup qs) by (apply ssort_NoDup, get_parents_NoDup, (reached_net_ok b1 R1)).
  assert (Perm : Permutation qs ps) by (apply NoDup_Permutation; auto).
  assert (Hqs : parents_are g v qs) by (split; auto; intros p; rewrite Hq, Hpe; tauto).
  assert (Hqn : incl qs (b_nodes b1)) by (apply parents_nodes, reached_net_ok; auto).
  assert (Nv : ~ In v qs) by (intros X; apply Hq, Hpe in X; apply (AC (LStr v)); constructor; auto).
  assert (Pn : forall p, In p qs -> In (LStr p) (nodes g)) by (intros p Hp; apply HN, Hqn; auto).
  destruct (fit_frames b1 d _ prior ess S R1 NS Ne Ic SW) as (b' & E2' & En & Ee & Es & Ec). rewrite E2 in E2'. injection E2' as <-.
  set (f := fitted_frame_of S b1 d method prior ess v).
  assert (Fit : fitted b2 S (map (fun v => (v, fitted_frame_of S b1 d method prior ess v)) (ssort (b_nodes b1)))).
  { exists b1, d, method, prior, ess. repeat (split; [assumption|]). auto. }
  assert (Iv : In (v, f) (map (fun v => (v, fitted_frame_of S b1 d method prior ess v)) (ssort (b_nodes b1)))).
  { apply in_map_iff. exists v. split; [auto|]. apply (Permutation_in _ (Permutation_sym (ssort_Perm _))), HN. auto. }
  assert (PO : Permutation order (declared S v)).
  { apply NoDup_Permutation; auto.
    - destruct (fitted_inv _ _ _ Fit) as (_ & _ & DS & _). destruct (DS v) as (_ & X & _); [rewrite En; apply HN; auto|auto].
    - intros s. rewrite Ord, Dec by (apply Names; auto). tauto. }
  assert (At : forall r u, In r (d_rows test) -> In (LStr u) (nodes g) -> exists x, at_col r u = Some x /\ In x (dom u)).
  { intros r u Hr Hu. destruct CT as (_ & _ & Full & _). destruct (at_col r u) as [x|] eqn:Ex; [exists x; split; [auto|apply (TI r u x); auto]|destruct (Full r u Hr (TC u Hu) Ex)]. }
  assert (Cell : forall u, In u (product (map dom qs)) -> In u (product (map (declared S) qs))).
  { intros u Hu. apply product_In in Hu. apply product_In. assert (Il : incl qs qs) by (intros x; auto). revert u Hu Il. generalize qs at 1 2 4. intros l. induction l as [|p l IH]; intros u Hu Il; cbn in *; inversion Hu; subst; constructor.
    - assert (Hp : In p qs) by (apply Il; left; auto). apply Dec; [apply Ic, Hqn; auto|]. apply Shown; auto. apply Hq. auto.
    - apply IH; auto. intros x Hx. apply Il. right. auto. }
  assert (Key : forall r, In r (d_rows test) -> parent_values r qs (row_key qs r) /\ In (row_key qs r) (product (map dom qs))).
  { intros r Hr. rewrite product_In. unfold row_key. clear -At Hr Pn. induction qs as [|p l IH]; cbn; [split; constructor|].
    destruct IH as [A B]; [intros; apply Pn; right; auto|]. destruct (At r p Hr) as (x & Ex & Dx); [apply Pn; left; auto|]. rewrite Ex. cbn [seen]. split; constructor; auto. }
  set (prob := fun (r : list (string * option label)) s => cell_of f s (row_key qs r)).
  destruct (predictions b2 S _ test v f order pg Fit Iv) as (out & Pp & Fo); auto.
  { intros p Hp. apply TC, Pn. exact Hp. }
  { intros s Hs X. apply (NC s (col_name v s)); auto; [apply (Permutation_in _ (Permutation_sym PO)); auto|apply Hq; exact X]. }
  { intros r Hr. exists (row_key qs r). destruct (Key r Hr) as [A B]. split; [exact A|]. apply Cell. exact B. }
  exists b2, prob. split; [exists b0, b1; auto|]. split.
  { rewrite Pp. do 2 f_equal. assert (Ik : forall r, In r (d_rows test) -> parent_values r qs (row_key qs r)) by (intros r Hr; apply Key; auto). clear -Fo Ik.
    induction Fo as [|r o l out (u & Pv & Eo & _) Fo IH]; auto. cbn [map]. rewrite IH by (intros; apply Ik; right; auto). f_equal. rewrite Eo. unfold prob.
    rewrite (values_unique r qs u (row_key qs r)); auto. apply Ik. left. auto. }
  split.
  { intros r r' H s. unfold prob. do 2 f_equal. unfold row_key. apply map_ext_in. intros c Hc. rewrite (H c); auto. apply Hpe, Hq. auto. }
  set (sm := asked_smoothing method prior ess (List.length (declared S v)) (List.length (product (map (declared S) qs)))).
  assert (Cp : (0 < List.length (product (map (declared S) qs)))%nat) by (apply (cells_pos' b1 S R1 Ne v)).
  assert (Hl0 : forall s, In s order -> (0 < List.length (declared S v))%nat) by (intros s Hs; apply (Permutation_in _ PO) in Hs; destruct (declared S v); [destruct Hs|cbn; lia]).
  assert (So0 : forall s, In s order -> smooth_ok sm) by (intros s Hs; specialize (Hl0 s Hs); destruct (sound_way_spec _ _ _ SW) as (sm' & _ & Ea & Ok); unfold sm; rewrite <- Ea; apply Ok; auto).
  assert (Ef : forall s u, In s order -> In u (product (map dom qs)) -> cell_of f s u = frequency sm (declared S) (d_rows d) v qs s u).
  { intros s u Hs Hu. unfold f, fitted_frame_of. rewrite Us. fold qs. rewrite cell_of_frame; [reflexivity|apply (Permutation_in _ PO); auto|apply Cell; auto]. }
  split.
  { intros r s Hr Hs. unfold prob. rewrite Ef by (auto; apply Key; auto). apply frequency_near; eauto. }
  intros s wt Hs Lw Bw. assert (Dk : forall x y : list label, {x = y} + {x <> y}) by (intros x y; destruct (list_eqb_spec x y); auto).
  set (L := nodup Dk (product (map dom qs))).
  assert (Ll : (List.length L <= choices dom ps)%nat).
  { replace (choices dom ps) with (choices dom qs). - rewrite <- choices_product. apply NoDup_incl_length; [apply NoDup_nodup|]. intros x Hx. apply nodup_In in Hx. auto.
    - clear -Perm. induction Perm; cbn; auto; [lia|congruence]. }
  assert (LL : forall u, In u L -> List.length u = List.length qs).
  { intros u Hu. apply nodup_In, product_In in Hu. rewrite <- (map_length dom qs). clear -Hu. induction Hu; cbn; auto. }
  assert (Nn : forall d, complete d -> 0 < INR (List.length (d_rows d))) by (intros d' (_ & NR & _); apply (lt_INR 0); destruct (d_rows d'); [congruence|cbn; lia]).
  assert (Full : forall r c, In r (d_rows test) -> In c qs -> at_col r c <> None) by (intros r c Hr Hc; destruct (At r c Hr (Pn c Hc)) as (x & -> & _); discriminate).
  set (w := fun u => Rmax (-1) (Rmin 1 (wt (map (fun pu => (fst pu, Some (snd pu))) (combine qs u))))).
  assert (Wb : forall u, Rabs (w u) <= 1) by (intros u; unfold w; apply Rabs_le; split; [apply Rmax_l|apply Rmax_lub; [lra|apply Rmin_l]]).
  assert (Ew : forall r, In r (d_rows test) -> wt r = w (row_key qs r)).
  { intros r Hd. unfold w. rewrite <- (Lw r (map (fun pu => (fst pu, Some (snd pu))) (combine qs (row_key qs r)))).
    - destruct (Bw r Hd). rewrite Rmin_right by lra. rewrite Rmax_right by lra. auto.
    - intros p Hp. apply Hpe, Hq in Hp. apply rebuilt; auto. }
  unfold prob. replace (total (map (fun r => wt r * (shown_state r v s - realq (cell_of f s (row_key qs r)))) (d_rows test)))
    with (total (map (fun r => w (row_key qs r) * (shown_state r v s - realq (cell_of f s (row_key qs r)))) (d_rows test))) by (f_equal; apply map_ext_in; intros r Hd; rewrite <- Ew by auto; auto).
  rewrite (weight_groups (d_rows test) v s qs w (fun u => cell_of f s u) L (NoDup_nodup _ _) LL Full) by (intros r Hr; apply nodup_In, Key; auto).
  match goal with |- Rabs ?t / ?n <= _ => replace (Rabs t / n) with (Rabs (t / n)) by (unfold Rdiv; rewrite Rabs_mult, (Rabs_pos_eq (/ n)); [auto|apply Rlt_le, Rinv_0_lt_compat, (Nn test CT)]) end.
  rewrite total_div.
  set (nd := INR (List.length (d_rows d))). set (nt := INR (List.length (d_rows test))).
  assert (Pd : 0 < nd) by (apply (Nn d CD)).
  assert (Ds : In s (declared S v)) by (apply (Permutation_in _ PO); auto).
  assert (Hl : (0 < List.length (declared S v))%nat) by (destruct (declared S v); [destruct Ds|cbn; lia]).
  assert (So : smooth_ok sm) by (destruct (sound_way_spec _ _ _ SW) as (sm' & _ & Ea & Ok); unfold sm; rewrite <- Ea; apply Ok; auto).
  assert (Lc : (List.length L <= List.length (product (map (declared S) qs)))%nat).
  { apply NoDup_incl_length; [apply NoDup_nodup|]. intros u Hu. apply Cell. apply nodup_In in Hu. auto. }
  assert (Pc : 0 <= per_column sm (List.length (declared S v))).
  { unfold per_column. destruct sm as [|x]; [lra|]. apply Rmult_le_pos; [apply pos_INR|]. cbn in So. apply realq_above in So. lra. }
  assert (Tot : INR (List.length L) * per_column sm (List.length (declared S v)) <= added method prior ess (List.length order) (choices dom ps)).
  { rewrite (Permutation_length PO). unfold added. unfold sm, asked_smoothing in *. destruct (String.eqb method "MaximumLikelihoodEstimator"); [cbn [per_column]; lra|].
    assert (KK : INR (List.length L) * (INR (List.length (declared S v)) * realq 1%Qc) <= INR (List.length (declared S v) * choices dom ps)).
    { rewrite realq_1, mult_INR. apply le_INR in Ll. pose proof (pos_INR (List.length (declared S v))). rewrite Rmult_1_r, (Rmult_comm (INR (List.length L))). apply Rmult_le_compat_l; auto. }
    assert (BB : smooth_ok (Pseudo (match ess with Some e => e | None => 0%Qc end / Qc_of_nat (List.length (declared S v) * List.length (product (map (declared S) qs))))%Qc) ->
      INR (List.length L) * (INR (List.length (declared S v)) * realq (match ess with Some e => e | None => 0%Qc end / Qc_of_nat (List.length (declared S v) * List.length (product (map (declared S) qs))))%Qc) <= realq (match ess with Some e => e | None => 0%Qc end)).
    { set (e := match ess with Some e => e | None => 0%Qc end). intros Ep. cbn in Ep. apply realq_above in Ep.
      assert (M0 : 0 < INR (List.length (declared S v) * List.length (product (map (declared S) qs)))) by (apply (lt_INR 0); lia).
      assert (Er : realq (e / Qc_of_nat (List.length (declared S v) * List.length (product (map (declared S) qs))))%Qc = realq e / INR (List.length (declared S v) * List.length (product (map (declared S) qs)))).
      { rewrite realq_div, realq_nat; auto. intros X. apply (f_equal realq) in X. rewrite realq_nat, realq_0 in X. lra. }
      set (x := realq (e / _)%Qc) in *. assert (Ee' : realq e = INR (List.length (declared S v)) * INR (List.length (product (map (declared S) qs))) * x) by (rewrite Er, <- mult_INR; field; lra).
      rewrite Ee'. apply le_INR in Lc. pose proof (pos_INR (List.length (declared S v))) as Pk.
      replace (INR (List.length (declared S v)) * INR (List.length (product (map (declared S) qs))) * x) with (INR (List.length (product (map (declared S) qs))) * (INR (List.length (declared S v)) * x)) by ring.
      apply Rmult_le_compat_r; auto. apply Rmult_le_pos; lra. }
    clear -KK BB So. repeat match goal with |- context [match ?z with _ => _ end] => is_var z; destruct z end; cbn [per_column] in *; auto. }
  apply Rle_trans with (INR (List.length L) * (2 * eps + per_column sm (List.length (declared S v)) / nd)).
  2:{ rewrite Rmult_plus_distr_l. apply Rplus_le_compat.
      - apply Rle_trans with (INR (choices dom ps) * (2 * eps)); [apply Rmult_le_compat_r; [lra|apply le_INR; auto]|lra].
      - unfold Rdiv. rewrite <- Rmult_assoc. apply Rmult_le_compat_r; [apply Rlt_le, Rinv_0_lt_compat; auto|auto]. }
  assert (Pcd : 0 <= per_column sm (List.length (declared S v)) / nd) by (apply Rmult_le_pos; [auto|apply Rlt_le, Rinv_0_lt_compat; auto]).
  rewrite <- (Rminus_0_r (total _)). replace 0 with (total (map (fun _ : list label => 0) L)) at 1 by (unfold total; clear; induction L as [|u L IH]; cbn; auto; rewrite IH; lra).
  apply total_near. intros u Hu. rewrite Rminus_0_r.
  assert (Iu : In u (product (map (declared S) qs))) by (apply Cell; apply nodup_In in Hu; auto).
  rewrite (Ef s u Hs) by (apply nodup_In in Hu; auto). destruct (frequency_near sm (declared S) (d_rows d) v qs s u So Hl) as [Q01 QD]. set (Q := realq (frequency sm (declared S) (d_rows d) v qs s u)) in *.
  destruct (Al v qs (with_values qs u) Hv Hqs) as [B1 _]. destruct (Al v qs (put (with_values qs u) v s) Hv Hqs) as [_ B2].
  rewrite !share_occ in B1 by auto. rewrite !share_occw in B2 by auto. fold nd nt in B1, B2.
  set (T := INR (occurrences (d_rows test) qs u) / nt) in *. set (Ts := INR (occurrences_with (d_rows test) v s qs u) / nt) in *.
  set (D := INR (occurrences (d_rows d) qs u) / nd) in *. set (Dd := INR (occurrences_with (d_rows d) v s qs u) / nd) in *.
  assert (B3 : Rabs (Dd - Q * D) <= per_column sm (List.length (declared S v)) / nd).
  { replace (Dd - Q * D) with ((INR (occurrences_with (d_rows d) v s qs u) - Q * INR (occurrences (d_rows d) qs u)) * / nd) by (unfold Dd, D, Rdiv; ring).
    rewrite Rabs_mult, (Rabs_pos_eq (/ nd)) by (apply Rlt_le, Rinv_0_lt_compat; auto). apply Rmult_le_compat_r; [apply Rlt_le, Rinv_0_lt_compat; auto|auto]. }
  replace (w u * (INR (occurrences_with (d_rows test) v s qs u) - Q * INR (occurrences (d_rows test) qs u)) / nt) with (w u * ((Ts - Dd) + (Dd - Q * D) + Q * (D - T))) by (unfold Ts, T, Rdiv; ring).
  rewrite Rabs_mult. apply Rle_trans with (1 * Rabs ((Ts - Dd) + (Dd - Q * D) + Q * (D - T))); [apply Rmult_le_compat_r; [apply Rabs_pos|auto]|]. rewrite Rmult_1_l.
  eapply Rle_trans; [apply Rabs_triang|]. rewrite Rabs_mult, (Rabs_pos_eq Q) by lra. rewrite <- Rabs_Ropp in B1. replace (- (T - D)) with (D - T) in B1 by ring.
  assert (Q * Rabs (D - T) <= 1 * eps) by (apply Rmult_le_compat; try lra; apply Rabs_pos). pose proof (Rabs_triang (Ts - Dd) (Dd - Q * D)). lra.
Qed.

(** ** The squared error *)
Theorem nearly_best g d method prior ess dom v ps test eps order pg : reached g -> named g -> acyclic (edges g) -> all_linked g -> edges g <> [] ->
  (forall x, In (LStr x) (nodes g) -> In x (d_cols d)) -> complete d -> sound_way method prior ess -> In (LStr v) (nodes g) -> parents_are g v ps ->
  complete test -> data_in g dom test -> alike g d test eps -> 0 <= eps ->
  (forall p x, In p ps -> In x (dom p) -> exists r, In r (d_rows d) /\ at_col r p = Some x) ->
  NoDup order -> (forall s, In s order <-> exists r, In r (d_rows d) /\ at_col r v = Some s) ->
  (forall s p, In s order -> In p ps -> p <> col_name v s) ->
  exists b prob, learnt_from g d method prior ess b /\
    predict_probability order pg b test v = Ok (map (col_name v) order, map (fun r => map (fun s => CNum (prob r s)) order) (d_rows test)) /\
    forall rule, looks_at_parents g v rule -> (forall r s, In r (d_rows test) -> In s order -> 0 <= rule r s <= 1) ->
      brier (d_rows test) v order (fun r s => realq (prob r s)) / INR (List.length (d_rows test)) <= brier (d_rows test) v order rule / INR (List.length (d_rows test)) +
        2 * INR (List.length order) * (2 * INR (choices dom ps) * eps + added method prior ess (List.length order) (choices dom ps) / INR (List.length (d_rows d))).
Proof.
  intros Rg Nm AC AL NE Names CD SW Hv Hps CT DT Al He Shown NDo Ord NC.
  destruct (weighed g d method prior ess dom v ps test eps order pg Rg Nm AC AL NE Names CD SW Hv Hps CT DT Al He Shown NDo Ord NC) as (b & prob & L & Pp & Look & P01 & W).
  exists b, prob. split; [auto|]. split; [auto|]. intros rule Hr R01. set (B := 2 * INR (choices dom ps) * eps + _) in *.
  set (nt := INR (List.length (d_rows test))) in *. assert (Pt : 0 < nt) by (destruct CT as (_ & NR & _); apply (lt_INR 0); destruct (d_rows test); [congruence|cbn; lia]).
  assert (X : forall s, In s order -> total (map (fun r => (shown_state r v s - realq (prob r s)) ^ 2) (d_rows test)) <= total (map (fun r => (shown_state r v s - rule r s) ^ 2) (d_rows test)) + 2 * B * nt).
  { intros s Hs. specialize (W s (fun r => rule r s - realq (prob r s)) Hs).
    assert (Wb : Rabs (total (map (fun r => (rule r s - realq (prob r s)) * (shown_state r v s - realq (prob r s))) (d_rows test))) / nt <= B).
    { apply W; [intros r r' E; rewrite (Hr r r' E s), (Look r r' E s); auto|]. intros r Hd. specialize (P01 r s Hd Hs). specialize (R01 r s Hd Hs). lra. }
    assert (Wc : total (map (fun r => (rule r s - realq (prob r s)) * (shown_state r v s - realq (prob r s))) (d_rows test)) <= B * nt).
    { eapply Rle_trans; [apply Rle_abs|]. apply Rmult_le_reg_r with (/ nt); [apply Rinv_0_lt_compat; auto|]. rewrite Rmult_assoc, Rinv_r, Rmult_1_r by lra. exact Wb. }
    apply Rle_trans with (total (map (fun r => (shown_state r v s - rule r s) ^ 2 + 2 * ((rule r s - realq (prob r s)) * (shown_state r v s - realq (prob r s)))) (d_rows test))).
    - apply total_le. intros r _. pose proof (pow2_ge_0 (rule r s - realq (prob r s))).
      assert (E : (shown_state r v s - rule r s) ^ 2 + 2 * ((rule r s - realq (prob r s)) * (shown_state r v s - realq (prob r s))) = (shown_state r v s - realq (prob r s)) ^ 2 + (rule r s - realq (prob r s)) ^ 2) by ring. lra.
    - rewrite total_add.
      assert (Y : forall (h : list (string * option label) -> R) l, total (map (fun r => 2 * h r) l) = 2 * total (map h l)) by (intros h l; unfold total; induction l as [|a l IH]; cbn; [ring|rewrite IH; ring]).
      rewrite (Y (fun r => (rule r s - realq (prob r s)) * (shown_state r v s - realq (prob r s)))). lra. }
  assert (Z : brier (d_rows test) v order (fun r s => realq (prob r s)) <= brier (d_rows test) v order rule + 2 * INR (List.length order) * B * nt).
  { unfold brier. rewrite !(total_swap _ (d_rows test) order). clearbody B nt. clear -X. unfold total in *. induction order as [|s o IH]; cbn [map fold_right List.length]; [cbn [INR]; lra|].
    rewrite S_INR. specialize (IH (fun s' H => X s' (or_intror H))). specialize (X s (or_introl eq_refl)). lra. }
  apply Rmult_le_reg_r with nt; auto. rewrite Rmult_plus_distr_r. unfold Rdiv. rewrite !Rmult_assoc, Rinv_l by lra. lra.
Qed.
