(** * CalibProofs: predicted probabilities and how often the states occur. *)
From Coq Require Import List Bool Arith ZArith Lia String QArith Qcanon Permutation Reals Lra.
From Verif Require Import Base QcX Digraph SmModel SmProofs SmHist SmThms NetModel NetProofs NetFit NetThms NetBridge NetEquiv NetMoral NetMarkov.
From Verif Require Import AcycLink OrdProofs FitBound NetBayes NetConsist NetSample VoteProofs HeldProofs.
Import ListNotations.
Local Open Scope list_scope.
Local Open Scope R_scope.

(** Among the rows whose predicted probability [prob] of the state [s] of [v] is in [bin]: how many more rows show the state
    than the probabilities add up to. *)
Definition surplus (rows : list (list (string * option label))) (v : string) (s : label) (prob : list (string * option label) -> Qc) (bin : Qc -> bool) : R :=
  total (map (fun r => if bin (prob r) then (if holds r v s then 1 else 0) - realq (prob r) else 0) rows).

(** Two data frames have nearly the same shares, as far as a node and its parents are concerned. *)
Definition alike (g : graph) (d d' : df) (eps : R) : Prop :=
  forall v ps f, In (LStr v) (nodes g) -> parents_are g v ps ->
    Rabs (rows_share d' (given f ps) - rows_share d (given f ps)) <= eps /\
    Rabs (rows_share d' (given f (v :: ps)) - rows_share d (given f (v :: ps))) <= eps.

(** What an estimator adds to the counts of a node with so many states and combinations of parents' values. *)
Definition added (method : string) (prior : option string) (ess : option Qc) (states cells : nat) : R :=
  if String.eqb method "MaximumLikelihoodEstimator" then 0
  else match prior with Some "K2"%string => INR (states * cells) | _ => realq (match ess with Some e => e | None => 0%Qc end) end.

(** ** Sums over the combinations of the parents' values *)
Lemma key_holds ps r u : List.length u = List.length ps -> (forall c, In c ps -> at_col r c <> None) -> all_hold r ps u = lkeqb (row_key ps r) u.
Proof.
  revert u. induction ps as [|p ps IH]; intros [|x u] E F; try discriminate; auto. unfold all_hold, lkeqb in *. cbn. rewrite IH by (cbn in E; auto; intros; apply F; right; auto).
  rewrite holds_seen by (apply F; left; auto). auto.
Qed.

Lemma surplus_groups rows v s ps (Q : list label -> Qc) bin L : NoDup L -> (forall u, In u L -> List.length u = List.length ps) ->
  (forall r c, In r rows -> In c ps -> at_col r c <> None) -> (forall r, In r rows -> In (row_key ps r) L) ->
  surplus rows v s (fun r => Q (row_key ps r)) bin =
  total (map (fun u => if bin (Q u) then INR (occurrences_with rows v s ps u) - realq (Q u) * INR (occurrences rows ps u) else 0) L).
Proof.
  intros ND Len. induction rows as [|r rows IH]; intros Full Keys.
  - unfold surplus, occurrences, occurrences_with, total. cbn. clear. induction L as [|u L IHL]; cbn; auto. rewrite <- IHL. destruct (bin (Q u)); lra.
  - unfold surplus in *. cbn [map]. change (total (?x :: ?l)) with (x + total l). rewrite (IH (fun x c H => Full x c (or_intror H)) (fun x H => Keys x (or_intror H))).
    assert (I : In (row_key ps r) L) by (apply Keys; left; auto).
    set (F := fun u => if bin (Q u) then (if holds r v s then 1 else 0) - realq (Q u) else 0).
    change (if bin (Q (row_key ps r)) then (if holds r v s then 1 else 0) - realq (Q (row_key ps r)) else 0) with (F (row_key ps r)).
    assert (One : F (row_key ps r) = total (map (fun u => if lkeqb (row_key ps r) u then F u else 0) L)).
    { clear -ND I. assert (No : forall M, ~ In (row_key ps r) M -> total (map (fun u => if lkeqb (row_key ps r) u then F u else 0) M) = 0).
      { unfold total. intros M. induction M as [|k M IHM]; intros N; cbn; auto. unfold lkeqb. destruct (list_eqb_spec (row_key ps r) k) as [E|E]; [destruct N; left; auto|]. unfold lkeqb in IHM. rewrite IHM; [lra|intros X; apply N; right; auto]. }
      induction L as [|k M IHM]; [destruct I|]. apply NoDup_cons_iff in ND as [N ND]. unfold total in *. cbn [map fold_right]. unfold lkeqb at 1. destruct (list_eqb_spec (row_key ps r) k) as [E|E].
      - rewrite No by (rewrite E; auto). rewrite E. lra.
      - destruct I as [I|I]; [congruence|]. rewrite <- IHM by auto. lra. }
    rewrite One, <- total_add. f_equal. apply map_ext_in. intros u Hu. unfold F, occurrences_with, occurrences. cbn [filter].
    rewrite (key_holds ps r u (Len u Hu)) by (intros; apply Full; auto; left; auto).
    destruct (bin (Q u)), (lkeqb (row_key ps r) u), (holds r v s); cbn [andb List.length]; rewrite ?S_INR; lra.
Qed.

Lemma share_occ d ps u : NoDup ps -> List.length u = List.length ps ->
  rows_share d (given (with_values ps u) ps) = INR (occurrences (d_rows d) ps u) / INR (List.length (d_rows d)).
Proof. intros ND E. rewrite rows_share_agree, <- occ_agree, with_values_map; auto. Qed.
Lemma share_occw d ps v s u : NoDup ps -> ~ In v ps -> List.length u = List.length ps ->
  rows_share d (given (put (with_values ps u) v s) (v :: ps)) = INR (occurrences_with (d_rows d) v s ps u) / INR (List.length (d_rows d)).
Proof. intros ND N E. rewrite rows_share_agree, <- occw_agree, put_same, put_map, with_values_map; auto. Qed.

Lemma realq_frac n m : (0 < m)%nat -> realq (Qc_of_nat n / Qc_of_nat m)%Qc = INR n / INR m.
Proof.
  intros H. rewrite realq_div, !realq_nat; auto. intros X. apply (f_equal realq) in X. rewrite realq_nat, realq_0 in X. assert (0 < INR m) by (apply (lt_INR 0); auto). lra.
Qed.

Lemma realq_above x : (0 < x)%Qc -> 0 < realq x.
Proof. intros H. rewrite <- realq_0. unfold realq. apply Qreals.Qlt_Rlt. exact H. Qed.

(** An estimated probability is between 0 and 1, and times the number of rows it is the number of rows with the state, up to what is added. *)
Definition per_column (sm : smoothing) (k : nat) : R := match sm with MLE => 0 | Pseudo x => INR k * realq x end.
Lemma frequency_near sm L rows v ps s u : smooth_ok sm -> (0 < List.length (L v))%nat ->
  0 <= realq (frequency sm L rows v ps s u) <= 1 /\
  Rabs (INR (occurrences_with rows v s ps u) - realq (frequency sm L rows v ps s u) * INR (occurrences rows ps u)) <= per_column sm (List.length (L v)).
Proof.
  intros So Hl. pose proof (occw_le rows v s ps u) as Ow. set (k := List.length (L v)) in *. assert (Hk : 1 <= INR k) by (apply (le_INR 1); auto).
  unfold frequency. destruct sm as [|x]; cbn [per_column].
  - destruct (Nat.eqb_spec (occurrences rows ps u) 0) as [Z|Z].
    + assert (Z' : occurrences_with rows v s ps u = 0%nat) by lia. rewrite Z, Z'. cbn [INR]. replace 1%Qc with (Qc_of_nat 1) by reflexivity. fold k. rewrite realq_frac by auto. cbn [INR].
      split; [|rewrite Rmult_0_r, Rminus_0_r, Rabs_R0; lra]. split; [apply Rlt_le, Rdiv_lt_0_compat; lra|]. apply Rmult_le_reg_r with (INR k); [lra|]. unfold Rdiv. rewrite Rmult_assoc, Rinv_l by lra. lra.
    + rewrite realq_frac by lia. assert (X : 0 < INR (occurrences rows ps u)) by (apply (lt_INR 0); lia). apply le_INR in Ow. pose proof (pos_INR (occurrences_with rows v s ps u)) as Y.
      split; [split; [apply Rmult_le_pos; [auto|apply Rlt_le, Rinv_0_lt_compat; auto]|]|].
      * apply Rmult_le_reg_r with (INR (occurrences rows ps u)); [auto|]. unfold Rdiv. rewrite Rmult_assoc, Rinv_l by lra. lra.
      * unfold Rdiv. rewrite Rmult_assoc, Rinv_l, Rmult_1_r by lra. unfold Rminus. rewrite Rplus_opp_r, Rabs_R0. lra.
  - cbn in So. assert (Hx : 0 < realq x) by (apply realq_above; auto).
    set (c := INR (occurrences_with rows v s ps u)). set (N := INR (occurrences rows ps u)). assert (Hc : 0 <= c) by apply pos_INR. assert (Le : c <= N) by (apply le_INR; auto).
    assert (Hkx : realq x <= INR k * realq x) by (replace (realq x) with (1 * realq x) at 1 by ring; apply Rmult_le_compat_r; lra).
    assert (Hd : 0 < N + INR k * realq x) by lra.
    assert (E : realq ((Qc_of_nat (occurrences_with rows v s ps u) + x) / (Qc_of_nat (occurrences rows ps u) + Qc_of_nat k * x))%Qc = (c + realq x) / (N + INR k * realq x)).
    { rewrite realq_div, !realq_plus, realq_mult, !realq_nat; [auto|]. intros Z. apply (f_equal realq) in Z. rewrite realq_plus, realq_mult, !realq_nat, realq_0 in Z. fold N in Z. lra. }
    fold k. rewrite E. split; [split; [apply Rlt_le, Rdiv_lt_0_compat; lra|]|].
    + apply Rmult_le_reg_r with (N + INR k * realq x); [auto|]. unfold Rdiv. rewrite Rmult_assoc, Rinv_l by lra. lra.
    + replace (c - (c + realq x) / (N + INR k * realq x) * N) with ((INR k * realq x * c - realq x * N) / (N + INR k * realq x)) by (field; lra).
      assert (A1 : 0 <= INR k * realq x * c) by (apply Rmult_le_pos; lra). assert (A2 : 0 <= realq x * N) by (apply Rmult_le_pos; lra).
      assert (A3 : INR k * realq x * c <= INR k * realq x * N) by (apply Rmult_le_compat_l; lra).
      assert (A4 : realq x * N <= INR k * realq x * N) by (apply Rmult_le_compat_r; lra).
      assert (A5 : 0 <= INR k * realq x * (INR k * realq x)) by (apply Rmult_le_pos; lra).
      unfold Rdiv. rewrite Rabs_mult, (Rabs_pos_eq (/ _)) by (apply Rlt_le, Rinv_0_lt_compat; auto).
      apply Rmult_le_reg_r with (N + INR k * realq x); [auto|]. rewrite Rmult_assoc, Rinv_l, Rmult_1_r by lra.
      rewrite Rmult_plus_distr_l. apply Rabs_le. lra.
Qed.

(** ** Calibration *)
Theorem calibrated g d method prior ess dom v ps test eps order pg : reached g -> named g -> acyclic (edges g) -> all_linked g -> edges g <> [] ->
  (forall x, In (LStr x) (nodes g) -> In x (d_cols d)) -> complete d -> sound_way method prior ess -> In (LStr v) (nodes g) -> parents_are g v ps ->
  complete test -> data_in g dom test -> alike g d test eps -> 0 <= eps ->
  (forall p x, In p ps -> In x (dom p) -> exists r, In r (d_rows d) /\ at_col r p = Some x) ->
  NoDup order -> (forall s, In s order <-> exists r, In r (d_rows d) /\ at_col r v = Some s) ->
  (forall s p, In s order -> In p ps -> p <> col_name v s) ->
  exists b prob, learnt_from g d method prior ess b /\
    predict_probability order pg b test v = Ok (map (col_name v) order, map (fun r => map (fun s => CNum (prob r s)) order) (d_rows test)) /\
    forall s bin, In s order ->
      Rabs (surplus (d_rows test) v s (fun r => prob r s) bin) / INR (List.length (d_rows test)) <=
        2 * INR (choices dom ps) * eps + added method prior ess (List.length order) (choices dom ps) / INR (List.length (d_rows d)).
Proof.
  intros Rg Nm AC AL NE Names CD SW Hv Hps CT [TC TI] Al He Shown NDo Ord NC.
  destruct (to_learnt g d _ prior ess Rg Nm AC AL NE Names CD SW) as (b0 & b1 & b2 & S & E0 & E1 & E2 & R1 & NS & Ne & Ic & HE & HN & Dec & Us).
  set (qs := ssort (get_parents b1 v)). pose proof Hps as [ND Hpe].
  assert (Hq : forall p, In p qs <-> In p ps).
  { intros p. rewrite Hpe, <- HE, <- get_parents_In. split; apply Permutation_in; [|apply Permutation_sym]; apply ssort_Perm. }
  assert (NDq : NoDup qs) by (apply ssort_NoDup, get_parents_NoDup, (reached_net_ok b1 R1)).
  assert (Perm : Permutation qs ps) by (apply NoDup_Permutation; auto).
  assert (Hqs : parents_are g v qs) by (split; auto; intros p; rewrite Hq, Hpe; tauto).
  assert (Hqn : incl qs (b_nodes b1)) by (apply parents_nodes, reached_net_ok; auto).
  assert (Nv : ~ In v qs) by (intros X; apply Hq, Hpe in X; apply (AC (LStr v)); constructor; auto).
  assert (Pn : forall p, In p qs -> In (LStr p) (nodes g)) by (intros p Hp; apply HN, Hqn; auto).
  destruct (fit_frames b1 d _ prior ess S R1 NS Ne Ic SW) as (b' & E2' & En & Ee & Es & Ec). rewrite E2 in E2'. injection E2' as <-.
  set (f := fitted_frame_of S b1 d method prior ess v).
  assert (Fit : fitted b2 S (map (fun v => (v, fitted_frame_of S b1 d method prior ess v)) (ssort (b_nodes b1)))).
  { exists b1, d, method, prior, ess. repeat (split; [assumption|]). auto. }
  assert (Iv : In (v, f) (map (fun v => (v, fitted_frame_of S b1 d method prior ess v)) (ssort (b_nodes b1)))).
  { apply in_map_iff. exists v. split; [auto|]. apply (Permutation_in _ (Permutation_sym (ssort_Perm _))), HN. auto. }
  assert (PO : Permutation order (declared S v)).
  { apply NoDup_Permutation; auto.
    - destruct (fitted_inv _ _ _ Fit) as (_ & _ & DS & _). destruct (DS v) as (_ & X & _); [rewrite En; apply HN; auto|auto].
    - intros s. rewrite Ord, Dec by (apply Names; auto). tauto. }
  assert (At : forall r u, In r (d_rows test) -> In (LStr u) (nodes g) -> exists x, at_col r u = Some x /\ In x (dom u)).
  { intros r u Hr Hu. destruct CT as (_ & _ & Full & _). destruct (at_col r u) as [x|] eqn:Ex; [exists x; split; [auto|apply (TI r u x); auto]|destruct (Full r u Hr (TC u Hu) Ex)]. }
  assert (Cell : forall u, In u (product (map dom qs)) -> In u (product (map (declared S) qs))).
  { intros u Hu. apply product_In in Hu. apply product_In. assert (Il : incl qs qs) by (intros x; auto). revert u Hu Il. generalize qs at 1 2 4. intros l. induction l as [|p l IH]; intros u Hu Il; cbn in *; inversion Hu; subst; constructor.
    - assert (Hp : In p qs) by (apply Il; left; auto). apply Dec; [apply Ic, Hqn; auto|]. apply Shown; auto. apply Hq. auto.
    - apply IH; auto. intros x Hx. apply Il. right. auto. }
  assert (Key : forall r, In r (d_rows test) -> parent_values r qs (row_key qs r) /\ In (row_key qs r) (product (map dom qs))).
  { intros r Hr. rewrite product_In. unfold row_key. clear -At Hr Pn. induction qs as [|p l IH]; cbn; [split; constructor|].
    destruct IH as [A B]; [intros; apply Pn; right; auto|]. destruct (At r p Hr) as (x & Ex & Dx); [apply Pn; left; auto|]. rewrite Ex. cbn [seen]. split; constructor; auto. }
  set (prob := fun (r : list (string * option label)) s => cell_of f s (row_key qs r)).
  destruct (predictions b2 S _ test v f order pg Fit Iv) as (out & Pp & Fo); auto.
  { intros p Hp. apply TC, Pn. exact Hp. }
  { intros s Hs X. apply (NC s (col_name v s)); auto; [apply (Permutation_in _ (Permutation_sym PO)); auto|apply Hq; exact X]. }
  { intros r Hr. exists (row_key qs r). destruct (Key r Hr) as [A B]. split; [exact A|]. apply Cell. exact B. }
  exists b2, prob. split; [exists b0, b1; auto|]. split.
  { rewrite Pp. do 2 f_equal. assert (Ik : forall r, In r (d_rows test) -> parent_values r qs (row_key qs r)) by (intros r Hr; apply Key; auto). clear -Fo Ik.
    induction Fo as [|r o l out (u & Pv & Eo & _) Fo IH]; auto. cbn [map]. rewrite IH by (intros; apply Ik; right; auto). f_equal. rewrite Eo. unfold prob.
    rewrite (values_unique r qs u (row_key qs r)); auto. apply Ik. left. auto. }
  intros s bin Hs. assert (Dk : forall x y : list label, {x = y} + {x <> y}) by (intros x y; destruct (list_eqb_spec x y); auto).
  set (L := nodup Dk (product (map dom qs))).
  assert (Ll : (List.length L <= choices dom ps)%nat).
  { replace (choices dom ps) with (choices dom qs). - rewrite <- choices_product. apply NoDup_incl_length; [apply NoDup_nodup|]. intros x Hx. apply nodup_In in Hx. auto.
    - clear -Perm. induction Perm; cbn; auto; [lia|congruence]. }
  assert (LL : forall u, In u L -> List.length u = List.length qs).
  { intros u Hu. apply nodup_In, product_In in Hu. rewrite <- (map_length dom qs). clear -Hu. induction Hu; cbn; auto. }
  assert (Nn : forall d, complete d -> 0 < INR (List.length (d_rows d))) by (intros d' (_ & NR & _); apply (lt_INR 0); destruct (d_rows d'); [congruence|cbn; lia]).
  unfold prob. rewrite (surplus_groups (d_rows test) v s qs (fun u => cell_of f s u) bin L (NoDup_nodup _ _) LL).
  2:{ intros r c Hr Hc. destruct (At r c Hr (Pn c Hc)) as (x & -> & _). discriminate. }
  2:{ intros r Hr. apply nodup_In, Key. auto. }
  match goal with |- Rabs ?t / ?n <= _ => replace (Rabs t / n) with (Rabs (t / n)) by (unfold Rdiv; rewrite Rabs_mult, (Rabs_pos_eq (/ n)); [auto|apply Rlt_le, Rinv_0_lt_compat, (Nn test CT)]) end.
  rewrite total_div.
  set (sm := asked_smoothing method prior ess (List.length (declared S v)) (List.length (product (map (declared S) qs)))).
  set (nd := INR (List.length (d_rows d))). set (nt := INR (List.length (d_rows test))).
  assert (Pd : 0 < nd) by (apply (Nn d CD)).
  assert (Cp : (0 < List.length (product (map (declared S) qs)))%nat) by (apply (cells_pos' b1 S R1 Ne v)).
  assert (Ds : In s (declared S v)) by (apply (Permutation_in _ PO); auto).
  assert (Hl : (0 < List.length (declared S v))%nat) by (destruct (declared S v); [destruct Ds|cbn; lia]).
  assert (So : smooth_ok sm) by (destruct (sound_way_spec _ _ _ SW) as (sm' & _ & Ea & Ok); unfold sm; rewrite <- Ea; apply Ok; auto).
  assert (Lc : (List.length L <= List.length (product (map (declared S) qs)))%nat).
  { apply NoDup_incl_length; [apply NoDup_nodup|]. intros u Hu. apply Cell. apply nodup_In in Hu. auto. }
  assert (Pc : 0 <= per_column sm (List.length (declared S v))).
  { unfold per_column. destruct sm as [|x]; [lra|]. apply Rmult_le_pos; [apply pos_INR|]. cbn in So. apply realq_above in So. lra. }
  assert (Tot : INR (List.length L) * per_column sm (List.length (declared S v)) <= added method prior ess (List.length order) (choices dom ps)).
  { rewrite (Permutation_length PO). unfold added. unfold sm, asked_smoothing in *. destruct (String.eqb method "MaximumLikelihoodEstimator"); [cbn [per_column]; lra|].
    assert (KK : INR (List.length L) * (INR (List.length (declared S v)) * realq 1%Qc) <= INR (List.length (declared S v) * choices dom ps)).
    { rewrite realq_1, mult_INR. apply le_INR in Ll. pose proof (pos_INR (List.length (declared S v))). rewrite Rmult_1_r, (Rmult_comm (INR (List.length L))). apply Rmult_le_compat_l; auto. }
    assert (BB : smooth_ok (Pseudo (match ess with Some e => e | None => 0%Qc end / Qc_of_nat (List.length (declared S v) * List.length (product (map (declared S) qs))))%Qc) ->
      INR (List.length L) * (INR (List.length (declared S v)) * realq (match ess with Some e => e | None => 0%Qc end / Qc_of_nat (List.length (declared S v) * List.length (product (map (declared S) qs))))%Qc) <= realq (match ess with Some e => e | None => 0%Qc end)).
    { set (e := match ess with Some e => e | None => 0%Qc end). intros Ep. cbn in Ep. apply realq_above in Ep.
      assert (M0 : 0 < INR (List.length (declared S v) * List.length (product (map (declared S) qs)))) by (apply (lt_INR 0); lia).
      assert (Er : realq (e / Qc_of_nat (List.length (declared S v) * List.length (product (map (declared S) qs))))%Qc = realq e / INR (List.length (declared S v) * List.length (product (map (declared S) qs)))).
      { rewrite realq_div, realq_nat; auto. intros X. apply (f_equal realq) in X. rewrite realq_nat, realq_0 in X. lra. }
      set (x := realq (e / _)%Qc) in *. assert (Ee' : realq e = INR (List.length (declared S v)) * INR (List.length (product (map (declared S) qs))) * x) by (rewrite Er, <- mult_INR; field; lra).
      rewrite Ee'. apply le_INR in Lc. pose proof (pos_INR (List.length (declared S v))) as Pk.
      replace (INR (List.length (declared S v)) * INR (List.length (product (map (declared S) qs))) * x) with (INR (List.length (product (map (declared S) qs))) * (INR (List.length (declared S v)) * x)) by ring.
      apply Rmult_le_compat_r; auto. apply Rmult_le_pos; lra. }
    clear -KK BB So. repeat match goal with |- context [match ?z with _ => _ end] => is_var z; destruct z end; cbn [per_column] in *; auto. }
  apply Rle_trans with (INR (List.length L) * (2 * eps + per_column sm (List.length (declared S v)) / nd)).
  2:{ rewrite Rmult_plus_distr_l. apply Rplus_le_compat.
      - apply Rle_trans with (INR (choices dom ps) * (2 * eps)); [apply Rmult_le_compat_r; [lra|apply le_INR; auto]|lra].
      - unfold Rdiv. rewrite <- Rmult_assoc. apply Rmult_le_compat_r; [apply Rlt_le, Rinv_0_lt_compat; auto|auto]. }
  assert (Pcd : 0 <= per_column sm (List.length (declared S v)) / nd) by (apply Rmult_le_pos; [auto|apply Rlt_le, Rinv_0_lt_compat; auto]).
  rewrite <- (Rminus_0_r (total _)). replace 0 with (total (map (fun _ : list label => 0) L)) at 1 by (unfold total; clear; induction L as [|u L IH]; cbn; auto; rewrite IH; lra).
  apply total_near. intros u Hu. rewrite Rminus_0_r.
  destruct (bin (cell_of f s u)); [|unfold Rdiv at 1; rewrite Rmult_0_l, Rabs_R0; lra].
  assert (Iu : In u (product (map (declared S) qs))) by (apply Cell; apply nodup_In in Hu; auto).
  assert (Ef : cell_of f s u = frequency sm (declared S) (d_rows d) v qs s u).
  { unfold f, fitted_frame_of. rewrite Us. fold qs. rewrite cell_of_frame by auto. reflexivity. }
  rewrite Ef. destruct (frequency_near sm (declared S) (d_rows d) v qs s u So Hl) as [Q01 QD]. set (Q := realq (frequency sm (declared S) (d_rows d) v qs s u)) in *.
  destruct (Al v qs (with_values qs u) Hv Hqs) as [B1 _]. destruct (Al v qs (put (with_values qs u) v s) Hv Hqs) as [_ B2].
  rewrite !share_occ in B1 by auto. rewrite !share_occw in B2 by auto. fold nd nt in B1, B2.
  set (T := INR (occurrences (d_rows test) qs u) / nt) in *. set (Ts := INR (occurrences_with (d_rows test) v s qs u) / nt) in *.
  set (D := INR (occurrences (d_rows d) qs u) / nd) in *. set (Dd := INR (occurrences_with (d_rows d) v s qs u) / nd) in *.
  assert (B3 : Rabs (Dd - Q * D) <= per_column sm (List.length (declared S v)) / nd).
  { replace (Dd - Q * D) with ((INR (occurrences_with (d_rows d) v s qs u) - Q * INR (occurrences (d_rows d) qs u)) * / nd) by (unfold Dd, D, Rdiv; ring).
    rewrite Rabs_mult, (Rabs_pos_eq (/ nd)) by (apply Rlt_le, Rinv_0_lt_compat; auto). apply Rmult_le_compat_r; [apply Rlt_le, Rinv_0_lt_compat; auto|auto]. }
  replace ((INR (occurrences_with (d_rows test) v s qs u) - Q * INR (occurrences (d_rows test) qs u)) / nt) with ((Ts - Dd) + (Dd - Q * D) + Q * (D - T)) by (unfold Ts, T, Rdiv; ring).
  eapply Rle_trans; [apply Rabs_triang|]. rewrite Rabs_mult, (Rabs_pos_eq Q) by lra. rewrite <- Rabs_Ropp in B1. replace (- (T - D)) with (D - T) in B1 by ring.
  assert (Q * Rabs (D - T) <= 1 * eps) by (apply Rmult_le_compat; try lra; apply Rabs_pos). pose proof (Rabs_triang (Ts - Dd) (Dd - Q * D)). lra.
Qed.
