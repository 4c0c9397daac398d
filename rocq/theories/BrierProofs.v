(** * BrierProofs: the squared error of predicted probabilities. *)
From Coq Require Import List Bool Arith ZArith Lia String QArith Qcanon Permutation Reals Lra.
From Verif Require Import Base QcX Digraph SmModel SmProofs SmHist SmThms NetModel NetProofs NetFit NetThms NetBridge NetEquiv NetMoral NetMarkov.
From Verif Require Import AcycLink OrdProofs FitBound NetBayes NetConsist NetSample VoteProofs HeldProofs CalibProofs.
Import ListNotations.
Local Open Scope list_scope.
Local Open Scope R_scope.

Definition shown_state (r : list (string * option label)) (v : string) (s : label) : R := if holds r v s then 1 else 0.

(** The Brier score: the sum over the rows and the states of [v] of the squared difference between the probability
    and 1 for the state of the row, 0 for the others. *)
Definition brier (rows : list (list (string * option label))) (v : string) (states : list label) (prob : list (string * option label) -> label -> R) : R :=
  total (map (fun r => total (map (fun s => (shown_state r v s - prob r s) ^ 2) states)) rows).

(** A rule that gives probabilities and looks at the parents of [v] only. *)
Definition looks_at_parents (g : graph) (v : string) (rule : list (string * option label) -> label -> R) : Prop :=
  forall r r', (forall p, In (LStr p, LStr v) (edges g) -> at_col r p = at_col r' p) -> forall s, rule r s = rule r' s.

(** ** What is predicted *)
Lemma answered g d prior ess v ps order pg : reached g -> named g -> acyclic (edges g) -> all_linked g -> edges g <> [] ->
  (forall x, In (LStr x) (nodes g) -> In x (d_cols d)) -> complete d -> In (LStr v) (nodes g) -> parents_are g v ps ->
  NoDup order -> (forall s, In s order <-> exists r, In r (d_rows d) /\ at_col r v = Some s) ->
  (forall s p, In s order -> In p ps -> p <> col_name v s) ->
  exists b prob qs, learnt_from g d "MaximumLikelihoodEstimator" prior ess b /\
    predict_probability order pg b d v = Ok (map (col_name v) order, map (fun r => map (fun s => CNum (prob r s)) order) (d_rows d)) /\
    parents_are g v qs /\ (forall r c, In r (d_rows d) -> In c qs -> at_col r c <> None) /\
    looks_at_parents g v (fun r s => realq (prob r s)) /\
    forall r s, In r (d_rows d) -> In s order -> realq (prob r s) = INR (occurrences_with (d_rows d) v s qs (row_key qs r)) / INR (occurrences (d_rows d) qs (row_key qs r)).
Proof.
  intros Rg Nm AC AL NE Names CD Hv Hps NDo Ord NC.
  assert (SW : sound_way "MaximumLikelihoodEstimator" prior ess) by (left; auto). set (method := "MaximumLikelihoodEstimator"%string) in *.
  set (test := d). set (dom := fun u => map (fun r => seen (at_col r u)) (d_rows d)). pose proof CD as CT. pose proof Names as TC.
  assert (TI : forall r v x, In r (d_rows test) -> In (LStr v) (nodes g) -> at_col r v = Some x -> In x (dom v)).
  { intros r u x Hr _ E. apply in_map_iff. exists r. rewrite E. auto. }
  destruct (to_learnt g d _ prior ess Rg Nm AC AL NE Names CD SW) as (b0 & b1 & b2 & S & E0 & E1 & E2 & R1 & NS & Ne & Ic & HE & HN & Dec & Us).
  set (qs := ssort (get_parents b1 v)). pose proof Hps as [ND Hpe].
  assert (Hq : forall p, In p qs <-> In p ps).
  { intros p. rewrite Hpe, <- HE, <- get_parents_In. split; apply Permutation_in; [|apply Permutation_sym]; apply ssort_Perm. }
  assert (NDq : NoDup qs) by (apply ssort_NoDup, get_parents_NoDup, (reached_net_ok b1 R1)).
  assert (Perm : Permutation qs ps) by (apply NoDup_Permutation; auto).
  assert (Hqs : parents_are g v qs) by (split; auto; intros p; rewrite Hq, Hpe; tauto).
  assert (Hqn : incl qs (b_nodes b1)) by (apply parents_nodes, reached_net_ok; auto).
  assert (Nv : ~ In v qs) by (intros X; apply Hq, Hpe in X; apply (AC (LStr v)); constructor; auto).
  assert (Pn : forall p, In p qs -> In (LStr p) (nodes g)) by (intros p Hp; apply HN, Hqn; auto).
  destruct (fit_frames b1 d _ prior ess S R1 NS Ne Ic SW) as (b' & E2' & En & Ee & Es & Ec). rewrite E2 in E2'. injection E2' as <-.
  set (f := fitted_frame_of S b1 d method prior ess v).
  assert (Fit : fitted b2 S (map (fun v => (v, fitted_frame_of S b1 d method prior ess v)) (ssort (b_nodes b1)))).
  { exists b1, d, method, prior, ess. repeat (split; [assumption|]). auto. }
  assert (Iv : In (v, f) (map (fun v => (v, fitted_frame_of S b1 d method prior ess v)) (ssort (b_nodes b1)))).
  { apply in_map_iff. exists v. split; [auto|]. apply (Permutation_in _ (Permutation_sym (ssort_Perm _))), HN. auto. }
  assert (PO : Permutation order (declared S v)).
  { apply NoDup_Permutation; auto.
    - destruct (fitted_inv _ _ _ Fit) as (_ & _ & DS & _). destruct (DS v) as (_ & X & _); [rewrite En; apply HN; auto|auto].
    - intros s. rewrite Ord, Dec by (apply Names; auto). tauto. }
  assert (Shown : forall p x, In p ps -> In x (dom p) -> exists r, In r (d_rows d) /\ at_col r p = Some x).
  { intros p x Hp Hx. apply in_map_iff in Hx as (r & <- & Hr). exists r. split; auto. destruct CD as (_ & _ & Full & _). destruct (at_col r p) as [x|] eqn:E; [auto|].
    destruct (Full r p Hr (Names p (Pn p (proj2 (Hq p) Hp))) E). }
  assert (At : forall r u, In r (d_rows test) -> In (LStr u) (nodes g) -> exists x, at_col r u = Some x /\ In x (dom u)).
  { intros r u Hr Hu. destruct CT as (_ & _ & Full & _). destruct (at_col r u) as [x|] eqn:Ex; [exists x; split; [auto|apply (TI r u x); auto]|destruct (Full r u Hr (TC u Hu) Ex)]. }
  assert (Cell : forall u, In u (product (map dom qs)) -> In u (product (map (declared S) qs))).
  { intros u Hu. apply product_In in Hu. apply product_In. assert (Il : incl qs qs) by (intros x; auto). revert u Hu Il. generalize qs at 1 2 4. intros l. induction l as [|p l IH]; intros u Hu Il; cbn in *; inversion Hu; subst; constructor.
    - assert (Hp : In p qs) by (apply Il; left; auto). apply Dec; [apply Ic, Hqn; auto|]. apply Shown; auto. apply Hq. auto.
    - apply IH; auto. intros x Hx. apply Il. right. auto. }
  assert (Key : forall r, In r (d_rows test) -> parent_values r qs (row_key qs r) /\ In (row_key qs r) (product (map dom qs))).
  { intros r Hr. rewrite product_In. unfold row_key. clear -At Hr Pn. induction qs as [|p l IH]; cbn; [split; constructor|].
    destruct IH as [A B]; [intros; apply Pn; right; auto|]. destruct (At r p Hr) as (x & Ex & Dx); [apply Pn; left; auto|]. rewrite Ex. cbn [seen]. split; constructor; auto. }
  set (prob := fun (r : list (string * option label)) s => cell_of f s (row_key qs r)).
  destruct (predictions b2 S _ test v f order pg Fit Iv) as (out & Pp & Fo); auto.
  { intros p Hp. apply TC, Pn. exact Hp. }
  { intros s Hs X. apply (NC s (col_name v s)); auto; [apply (Permutation_in _ (Permutation_sym PO)); auto|apply Hq; exact X]. }
  { intros r Hr. exists (row_key qs r). destruct (Key r Hr) as [A B]. split; [exact A|]. apply Cell. exact B. }
  exists b2, prob, qs. split; [exists b0, b1; auto|]. split.
  { rewrite Pp. do 2 f_equal. assert (Ik : forall r, In r (d_rows test) -> parent_values r qs (row_key qs r)) by (intros r Hr; apply Key; auto). clear -Fo Ik.
    induction Fo as [|r o l out (u & Pv & Eo & _) Fo IH]; auto. cbn [map]. rewrite IH by (intros; apply Ik; right; auto). f_equal. rewrite Eo. unfold prob.
    rewrite (values_unique r qs u (row_key qs r)); auto. apply Ik. left. auto. }
  split; [auto|]. split; [intros r c Hr Hc; destruct (At r c Hr (Pn c Hc)) as (x & -> & _); discriminate|]. split.
  { intros r r' H s. unfold prob. do 2 f_equal. unfold row_key. apply map_ext_in. intros c Hc. rewrite (H c); auto. apply Hpe, Hq. auto. }
  intros r s Hr Hs. destruct (Key r Hr) as [Pv Iu]. unfold prob, f, fitted_frame_of. rewrite Us. fold qs.
  rewrite cell_of_frame; [|apply (Permutation_in _ PO); auto|apply Cell; auto].
  change (asked_smoothing method prior ess (Datatypes.length (declared S v)) (Datatypes.length (product (map (declared S) qs)))) with MLE. unfold frequency.
  assert (Pos : (0 < occurrences (d_rows d) qs (row_key qs r))%nat).
  { unfold occurrences. assert (X : In r (filter (fun r0 => all_hold r0 qs (row_key qs r)) (d_rows d))).
    { apply filter_In. split; [exact Hr|]. rewrite key_holds; [unfold lkeqb; destruct (list_eqb_spec (row_key qs r) (row_key qs r)); auto|unfold row_key; apply map_length|].
      intros c Hc. destruct (At r c Hr (Pn c Hc)) as (x & -> & _). discriminate. }
    revert X. generalize (filter (fun r0 => all_hold r0 qs (row_key qs r)) (d_rows d)). intros [|a l] X; [destruct X|cbn; lia]. }
  destruct (Nat.eqb_spec (occurrences (d_rows d) qs (row_key qs r)) 0) as [Z|Z]; [lia|]. apply realq_frac. auto.
Qed.

(** ** Least squares *)
Lemma orthogonal rows v s ps (w : list label -> R) : (forall r c, In r rows -> In c ps -> at_col r c <> None) ->
  total (map (fun r => w (row_key ps r) * (shown_state r v s - INR (occurrences_with rows v s ps (row_key ps r)) / INR (occurrences rows ps (row_key ps r)))) rows) = 0.
Proof.
  intros Full. assert (Dk : forall x y : list label, {x = y} + {x <> y}) by (intros x y; destruct (list_eqb_spec x y); auto).
  set (L := nodup Dk (map (row_key ps) rows)). set (q := fun u => INR (occurrences_with rows v s ps u) / INR (occurrences rows ps u)).
  assert (G : forall sub, incl sub rows -> total (map (fun r => w (row_key ps r) * (shown_state r v s - q (row_key ps r))) sub) =
    total (map (fun u => w u * (INR (occurrences_with sub v s ps u) - q u * INR (occurrences sub ps u))) L)).
  { induction sub as [|r sub IH]; intros I.
    - unfold occurrences, occurrences_with, total. cbn. clear. induction L as [|u L IHL]; cbn; auto. rewrite <- IHL. lra.
    - cbn [map]. change (total (?x :: ?l)) with (x + total l). rewrite IH by (intros x Hx; apply I; right; auto).
      assert (Hr : In r rows) by (apply I; left; auto). assert (Ik : In (row_key ps r) L) by (apply nodup_In, in_map; auto).
      set (F := fun u => w u * (shown_state r v s - q u)). change (w (row_key ps r) * (shown_state r v s - q (row_key ps r))) with (F (row_key ps r)).
      assert (One : F (row_key ps r) = total (map (fun u => if lkeqb (row_key ps r) u then F u else 0) L)).
      { assert (ND : NoDup L) by apply NoDup_nodup. clear -ND Ik. assert (No : forall M, ~ In (row_key ps r) M -> total (map (fun u => if lkeqb (row_key ps r) u then F u else 0) M) = 0).
        { unfold total. intros M. induction M as [|k M IHM]; intros N; cbn; auto. unfold lkeqb. destruct (list_eqb_spec (row_key ps r) k) as [E|E]; [destruct N; left; auto|]. unfold lkeqb in IHM. rewrite IHM; [lra|intros X; apply N; right; auto]. }
        induction L as [|k M IHM]; [destruct Ik|]. apply NoDup_cons_iff in ND as [N ND]. unfold total in *. cbn [map fold_right]. unfold lkeqb at 1. destruct (list_eqb_spec (row_key ps r) k) as [E|E].
        - rewrite No by (rewrite E; auto). rewrite E. lra.
        - destruct Ik as [I|I]; [congruence|]. rewrite <- IHM by auto. lra. }
      rewrite One, <- total_add. f_equal. apply map_ext_in. intros u Hu. unfold F, occurrences_with, occurrences, shown_state. cbn [filter].
      assert (Eu : List.length u = List.length ps) by (apply nodup_In, in_map_iff in Hu as (r' & <- & _); unfold row_key; apply map_length).
      rewrite (key_holds ps r u Eu) by (intros; apply Full; auto).
      destruct (lkeqb (row_key ps r) u), (holds r v s); cbn [andb List.length]; rewrite ?S_INR; ring. }
  etransitivity; [exact (G rows (incl_refl _))|]. unfold total. generalize L. intros M. induction M as [|u M IH]; cbn [map fold_right]; auto. rewrite IH. unfold q.
  destruct (Nat.eq_dec (occurrences rows ps u) 0) as [Z|Z].
  - pose proof (occw_le rows v s ps u). assert (Z' : occurrences_with rows v s ps u = 0%nat) by lia. rewrite Z, Z'. cbn [INR]. ring.
  - assert (0 < INR (occurrences rows ps u)) by (apply (lt_INR 0); lia). field. lra.
Qed.

Lemma total_swap {A B} (f : A -> B -> R) l m : total (map (fun a => total (map (f a) m)) l) = total (map (fun b => total (map (fun a => f a b) l)) m).
Proof.
  unfold total. induction l as [|a l IH]; cbn; [induction m as [|b m IHm]; cbn; auto; rewrite <- IHm; lra|]. rewrite IH.
  clear. induction m as [|b m IHm]; cbn; [lra|]. rewrite <- IHm. lra.
Qed.
Lemma total_le {A} (a b : A -> R) l : (forall x, In x l -> a x <= b x) -> total (map a l) <= total (map b l).
Proof. unfold total. induction l as [|x l IH]; intros H; cbn; [lra|]. apply Rplus_le_compat; [apply H; left; auto|apply IH; intros; apply H; right; auto]. Qed.

Theorem least_squares g d prior ess v ps order pg : reached g -> named g -> acyclic (edges g) -> all_linked g -> edges g <> [] ->
  (forall x, In (LStr x) (nodes g) -> In x (d_cols d)) -> complete d -> In (LStr v) (nodes g) -> parents_are g v ps ->
  NoDup order -> (forall s, In s order <-> exists r, In r (d_rows d) /\ at_col r v = Some s) ->
  (forall s p, In s order -> In p ps -> p <> col_name v s) ->
  exists b prob, learnt_from g d "MaximumLikelihoodEstimator" prior ess b /\
    predict_probability order pg b d v = Ok (map (col_name v) order, map (fun r => map (fun s => CNum (prob r s)) order) (d_rows d)) /\
    looks_at_parents g v (fun r s => realq (prob r s)) /\
    forall rule, looks_at_parents g v rule -> brier (d_rows d) v order (fun r s => realq (prob r s)) +
      total (map (fun r => total (map (fun s => (realq (prob r s) - rule r s) ^ 2) order)) (d_rows d)) = brier (d_rows d) v order rule.
Proof.
  intros Rg Nm AC AL NE Names CD Hv Hps NDo Ord NC.
  destruct (answered g d prior ess v ps order pg Rg Nm AC AL NE Names CD Hv Hps NDo Ord NC) as (b & prob & qs & L & Pp & [NDq Hqs] & Full & Look & Pr).
  exists b, prob. repeat (split; [assumption|]). intros rule Hr. unfold brier. rewrite !(total_swap _ (d_rows d) order), <- total_add. f_equal. apply map_ext_in. intros s Hs.
  set (w := fun u => let r := map (fun pu => (fst pu, Some (snd pu))) (combine qs u) in realq (prob r s) - rule r s).
  assert (Ew : forall r, In r (d_rows d) -> realq (prob r s) - rule r s = w (row_key qs r)).
  { intros r Hd. unfold w. assert (E : forall p, In (LStr p, LStr v) (edges g) -> at_col r p = at_col (map (fun pu => (fst pu, Some (snd pu))) (combine qs (row_key qs r))) p).
    { intros p Hp. apply Hqs in Hp. assert (Fr : forall c, In c qs -> at_col r c <> None) by (intros; apply Full; auto). clear -Hp Fr. unfold row_key. induction qs as [|c l IH]; [destruct Hp|].
      cbn [map combine]. unfold at_col at 2. cbn [fst snd dget]. destruct (String.eqb_spec p c) as [->|N].
      - destruct (at_col r c) as [x|] eqn:Ex; [auto|destruct (Fr c (or_introl eq_refl) Ex)].
      - destruct Hp as [Hp|Hp]; [congruence|]. rewrite IH by (auto; intros; apply Fr; right; auto). reflexivity. }
    rewrite (Look r _ E s), (Hr r _ E s). auto. }
  pose proof (orthogonal (d_rows d) v s qs w Full) as O.
  assert (X : total (map (fun r => (shown_state r v s - rule r s) ^ 2) (d_rows d)) =
    total (map (fun r => ((shown_state r v s - realq (prob r s)) ^ 2 + (realq (prob r s) - rule r s) ^ 2) +
      2 * (w (row_key qs r) * (shown_state r v s - INR (occurrences_with (d_rows d) v s qs (row_key qs r)) / INR (occurrences (d_rows d) qs (row_key qs r))))) (d_rows d))).
  { f_equal. apply map_ext_in. intros r Hd. rewrite <- (Pr r s Hd Hs), <- (Ew r Hd). ring. }
  rewrite X, total_add, total_add. assert (Y : forall (h : list (string * option label) -> R) l, total (map (fun r => 2 * h r) l) = 2 * total (map h l)) by (intros h l; unfold total; induction l as [|a l IH]; cbn; [ring|rewrite IH; ring]).
  rewrite (Y (fun r => w (row_key qs r) * (shown_state r v s - INR (occurrences_with (d_rows d) v s qs (row_key qs r)) / INR (occurrences (d_rows d) qs (row_key qs r))))), O. ring.
Qed.
