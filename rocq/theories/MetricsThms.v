(** * MetricsThms: what evaluation.roc_auc and evaluation.classification_report return. *)
From Coq Require Import List Bool Arith ZArith Lia String Ascii QArith Qcanon Permutation Sorted.
From Verif Require Import Base QcX SmProofs SmHist NetModel NetProofs NetFit NetThms DiscModel DiscProofs EvalModel EvalProofs MetricsModel MetricsRoc.
Import ListNotations.
Local Open Scope string_scope.
Local Open Scope list_scope.

(** ** roc_auc *)

(** For each row and each state: does the row have the state, and how probable is it given the parents. *)
Definition observations (f : frame) (v : string) (states : list label) (rows : list (list (string * option label)))
    (U : list (string * option label) -> list label) : list observation :=
  flat_map (fun r => map (fun s => (holds r v s, cell_of f s (U r))) states) rows.

Lemma mapM_map_ok {A B C} (g : B -> res C) (f : A -> B) (h : A -> C) l :
  (forall x, g (f x) = Ok (h x)) -> mapM g (map f l) = Ok (map h l).
Proof. intros H. induction l as [|x l IH]; cbn; auto. rewrite H. cbn. rewrite IH. auto. Qed.

Lemma mapM_app_ok {A B} (g : A -> res B) l l' m m' : mapM g l = Ok m -> mapM g l' = Ok m' -> mapM g (l ++ l') = Ok (m ++ m').
Proof.
  revert m. induction l as [|x l IH]; intros m H H'; cbn in *; [injection H as <-; auto|].
  destruct (g x) as [y|]; cbn in *; [|discriminate]. destruct (mapM g l) as [ys|] eqn:E; cbn in *; [|discriminate].
  injection H as <-. rewrite (IH ys eq_refl H'). auto.
Qed.

Lemma scored_wanted f v states rows U : mapM scored (wanted_pairs f v states rows U) = Ok (observations f v states rows U).
Proof.
  unfold wanted_pairs, observations. induction rows as [|r rows IH]; cbn [flat_map]; auto.
  apply mapM_app_ok; auto. apply mapM_map_ok. intros s. reflexivity.
Qed.

Lemma mapM_perm {A B} (g : A -> res B) l l' : Permutation l l' -> forall m', mapM g l' = Ok m' -> exists m, mapM g l = Ok m /\ Permutation m m'.
Proof.
  induction 1 as [|x l l' P IH|x y l|l l' l'' P1 IH1 P2 IH2]; intros m' H.
  - exists m'. auto.
  - cbn in *. destruct (g x) as [z|]; cbn in *; [|discriminate]. destruct (mapM g l') as [zs|]; cbn in *; [|discriminate]. injection H as <-.
    destruct (IH zs eq_refl) as (m & -> & Pm). cbn. eauto.
  - cbn in *. destruct (g x); cbn in *; [|discriminate]. destruct (g y); cbn in *; [|discriminate]. destruct (mapM g l); cbn in *; [|discriminate].
    injection H as <-. eexists. split; [reflexivity|constructor].
  - destruct (IH2 m' H) as (m2 & E2 & Q2). destruct (IH1 m2 E2) as (m1 & E1 & Q1). exists m1. split; auto. etransitivity; eauto.
Qed.

Section Counts.
  Variables (f : frame) (v : string) (states : list label) (U : list (string * option label) -> list label).
  Hypothesis ND : NoDup states.

  Lemma row_counts r s0 : at_col r v = Some s0 -> In s0 states ->
    poss (map (fun s => (holds r v s, cell_of f s (U r))) states) = 1%nat /\
    negs (map (fun s => (holds r v s, cell_of f s (U r))) states) = pred (List.length states).
  Proof.
    intros E Hs. unfold holds. rewrite E. clear -ND Hs. revert Hs. induction ND as [|x l Hx NDl IH]; intros Hs; [destruct Hs|].
    assert (Z : ~ In s0 l -> poss (map (fun s => (label_eqb s0 s, cell_of f s (U r))) l) = 0%nat /\
                             negs (map (fun s => (label_eqb s0 s, cell_of f s (U r))) l) = List.length l).
    { clear. induction l as [|y l IH]; intros N; auto. destruct IH as [A B]; [intros H; apply N; right; auto|].
      unfold poss, negs in *. cbn [map filter fst]. destruct (label_eqb_spec s0 y) as [->|]; [exfalso; apply N; left; auto|]. cbn. rewrite A, B. auto. }
    unfold poss, negs in *. cbn [map filter fst]. destruct (label_eqb_spec s0 x) as [->|N]; cbn.
    - destruct (Z Hx) as [-> ->]. auto.
    - destruct Hs as [->|Hs]; [congruence|]. destruct (IH NDl Hs) as [-> ->]. split; auto. destruct l; [destruct Hs|]. auto.
  Qed.

  Lemma obs_counts rows : (forall r, In r rows -> exists s, at_col r v = Some s /\ In s states) ->
    poss (observations f v states rows U) = List.length rows /\
    negs (observations f v states rows U) = (List.length rows * pred (List.length states))%nat.
  Proof.
    induction rows as [|r rows IH]; intros H; auto. destruct IH as [A B]; [intros; apply H; right; auto|].
    destruct (H r (or_introl eq_refl)) as (s & Es & Hs). destruct (row_counts r s Es Hs) as [C D].
    unfold observations in *. cbn [flat_map]. rewrite poss_app, negs_app, A, B, C, D. cbn. auto.
  Qed.
End Counts.

Lemma rates_at_perm t l m : Permutation l m -> rates_at t l = rates_at t m.
Proof.
  intros P. pose proof (at_threshold_perm t l m P) as E. unfold at_threshold in E. injection E as E1 E2.
  unfold rates_at. rewrite E1, E2, (negs_perm _ _ P), (poss_perm _ _ P). auto.
Qed.

Lemma Qc_div_1 (w n : Qc) : n <> 0%Qc -> (w / n = 1 <-> w = n)%Qc.
Proof.
  intros N. split; intros H.
  - transitivity (w / n * n)%Qc; [field; auto|]. rewrite H. ring.
  - rewrite H. field. auto.
Qed.

Section Auc.
  Variables (b : bn) (S : list (string * list label)) (fs : list (string * frame)).
  Variables (d : df) (v : string) (f : frame) (order : list label) (pg : prob_predictor) (U : list (string * option label) -> list label).
  Hypothesis F : fitted b S fs.
  Hypothesis Hf : In (v, f) fs.
  Hypothesis PC : incl (f_names f) (d_cols d).
  Hypothesis VC : In v (d_cols d).
  Hypothesis PO : Permutation order (declared S v).
  Hypothesis NC : forall s, In s (declared S v) -> ~ In (col_name v s) (f_names f).
  Hypothesis Rows : forall r, In r (d_rows d) -> parent_values r (f_names f) (U r) /\ In (U r) (f_columns f) /\
    exists s, at_col r v = Some s /\ In s (declared S v).
  Hypothesis Pl : forall s, In s (declared S v) -> plain v s.
  Hypothesis SO : string_order (declared S v).
  Hypothesis NE : d_rows d <> [].

  Let obs := observations f v (declared S v) (d_rows d) U.

  Lemma declared_nodup : NoDup (declared S v).
  Proof.
    destruct (fitted_inv b S fs F) as (_ & _ & DS & P & _).
    assert (Hv : In v (b_nodes b)) by (apply (Permutation_in _ P), in_map_iff; exists (v, f); auto).
    apply (DS v Hv).
  Qed.

  Lemma obs_c : poss obs = List.length (d_rows d) /\ negs obs = (List.length (d_rows d) * pred (List.length (declared S v)))%nat.
  Proof. apply obs_counts; [apply declared_nodup|]. intros r Hr. apply Rows; auto. Qed.

  Lemma scored_pairs : exists l, Permutation l obs /\
    roc_auc order pg b d v = do roc <- roc_curve l; Ok (roc, auc roc).
  Proof.
    destruct (roc_spec b S fs d v f order pg U F Hf PC VC PO NC Rows Pl SO) as (l & E & P).
    destruct (mapM_perm scored l _ P _ (scored_wanted f v (declared S v) (d_rows d) U)) as (m & Em & Pm).
    exists m. split; auto. unfold roc_auc. rewrite E. cbn [bind]. rewrite Em. reflexivity.
  Qed.

  Local Open Scope Qc_scope.

  Theorem auc_spec : (2 <= List.length (declared S v))%nat ->
    exists roc a, roc_auc order pg b d v = Ok (map known roc, Some a) /\
      a = wins obs obs / (Qc_of_nat (poss obs) * Qc_of_nat (negs obs)) /\
      hd_error roc = Some (0, 0) /\ last roc (0, 0) = (1, 1) /\
      (forall p, In p roc -> p = (0, 0) \/ exists o, In o obs /\ p = rates_at (snd o) obs) /\
      (forall o, In o obs -> on_curve roc (rates_at (snd o) obs)).
  Proof.
    intros K. destruct scored_pairs as (l & P & E). destruct obs_c as [CP CN].
    assert (LR : (0 < List.length (d_rows d))%nat) by (destruct (d_rows d); [congruence|cbn; lia]).
    destruct (roc_curve_spec l) as (roc & E1 & E2 & E3 & E4 & E5 & E6).
    - rewrite (negs_perm _ _ P), CN. apply Nat.mul_pos_pos; lia.
    - rewrite (poss_perm _ _ P), CP. auto.
    - exists roc, (wins obs obs / (Qc_of_nat (poss obs) * Qc_of_nat (negs obs))). rewrite E, E1. cbn [bind]. rewrite E2.
      rewrite (wins_perm l obs P), (negs_perm _ _ P), (poss_perm _ _ P). split; auto. split; auto. split; auto. split; auto. split.
      + intros p Hp. destruct (E5 p Hp) as [->|(o & Ho & ->)]; [auto|]. right. exists o. split; [apply (Permutation_in _ P); auto|apply rates_at_perm; auto].
      + intros o Ho. rewrite <- (rates_at_perm (snd o) l obs P). apply E6. apply (Permutation_in _ (Permutation_sym P)); auto.
  Qed.

  Theorem auc_bounds : (2 <= List.length (declared S v))%nat ->
    exists roc a, roc_auc order pg b d v = Ok (roc, Some a) /\ 0 <= a /\ a <= 1 /\
      (a = 1 <-> forall x y, In x obs -> In y obs -> fst x = true -> fst y = false -> snd y < snd x).
  Proof.
    intros K. destruct (auc_spec K) as (roc & a & E & Ea & _). exists (map known roc), a. split; auto.
    destruct obs_c as [CP CN].
    assert (LR : (0 < List.length (d_rows d))%nat) by (destruct (d_rows d); [congruence|cbn; lia]).
    assert (PP : 0 < Qc_of_nat (poss obs) * Qc_of_nat (negs obs)).
    { rewrite <- Qc_of_nat_mul. apply Qc_of_nat_lt. rewrite CP, CN. repeat apply Nat.mul_pos_pos; lia. }
    destruct (Qc_div_le_1 (wins obs obs) _ (wins_nonneg obs obs) (wins_le obs obs) PP) as [B C]. rewrite <- Ea in B, C.
    split; auto. split; auto. rewrite <- wins_all.
    assert (NZ : Qc_of_nat (poss obs) * Qc_of_nat (negs obs) <> 0) by (intros Z; rewrite Z in PP; exact (Qclt_not_eq _ _ PP eq_refl)).
    rewrite Ea. apply Qc_div_1. exact NZ.
  Qed.

  Theorem auc_one_state : List.length (declared S v) = 1%nat ->
    exists roc, roc_auc order pg b d v = Ok (roc, None) /\ forall p, In p roc -> fst p = None.
  Proof.
    intros K. destruct scored_pairs as (l & P & E). destruct obs_c as [CP CN].
    destruct (roc_curve_no_negs l) as (roc & E1 & E2 & E3).
    - intros ->. apply Permutation_nil in P. rewrite P in CP. destruct (d_rows d); [congruence|discriminate CP].
    - rewrite (negs_perm _ _ P), CN, K. cbn. lia.
    - exists roc. rewrite E, E1. cbn [bind]. rewrite E2. auto.
  Qed.
End Auc.

(** ** classification_report *)
Local Open Scope Qc_scope.

(** What a row of the report says about [hit] correct predictions among [pred] predictions and [occ] occurrences. *)
Definition describes (m : metric) (hit pred occ : nat) : Prop :=
  m_support m = occ /\
  m_precision m * Qc_of_nat pred = Qc_of_nat hit /\ (pred = 0%nat -> m_precision m = 0) /\
  m_recall m * Qc_of_nat occ = Qc_of_nat hit /\ (occ = 0%nat -> m_recall m = 0) /\
  m_f1 m * Qc_of_nat (pred + occ) = (1 + 1) * Qc_of_nat hit /\ (hit = 0%nat -> m_f1 m = 0).

Lemma ratio_0 a : ratio a 0 = 0.
Proof. unfold ratio. destruct (Qc_eq_bool_spec 0 0); congruence. Qed.
Lemma ratio_div a b : b <> 0 -> ratio a b = a / b.
Proof. intros N. unfold ratio. destruct (Qc_eq_bool_spec b 0); congruence. Qed.
Lemma ratio_mul a b : (b = 0 -> a = 0) -> ratio a b * b = a.
Proof. intros H. unfold ratio. destruct (Qc_eq_bool_spec b 0) as [E|N]; [rewrite H by auto; ring|field; auto]. Qed.

Lemma metric_describes hit pred occ : (hit <= pred)%nat -> (hit <= occ)%nat -> describes (metric_of hit pred occ) hit pred occ.
Proof.
  intros A B. unfold describes, metric_of. cbn [m_support m_precision m_recall m_f1].
  set (h := Qc_of_nat hit). set (p := Qc_of_nat pred). set (o := Qc_of_nat occ).
  assert (Hp : p = 0 -> h = 0).
  { unfold p, h. intros E. rewrite <- Qc_of_nat_0 in *. apply Qc_of_nat_inj in E. f_equal. lia. }
  assert (Ho : o = 0 -> h = 0).
  { unfold o, h. intros E. rewrite <- Qc_of_nat_0 in *. apply Qc_of_nat_inj in E. f_equal. lia. }
  assert (Zh : h = 0 -> forall x, ratio h x = 0).
  { intros -> x. unfold ratio. destruct (Qc_eq_bool x 0); auto. unfold Qcdiv. ring. }
  split; auto. split; [apply ratio_mul; auto|]. split; [intros ->; unfold p; rewrite Qc_of_nat_0; apply ratio_0|].
  split; [apply ratio_mul; auto|]. split; [intros ->; unfold o; rewrite Qc_of_nat_0; apply ratio_0|].
  rewrite Qc_of_nat_add. fold p o.
  assert (Zf : h = 0 -> ratio ((1 + 1) * ratio h p * ratio h o) (ratio h p + ratio h o) = 0).
  { intros Z. rewrite !(Zh Z). replace (0 + 0) with (0 : Qc) by ring. apply ratio_0. }
  split.
  - destruct (Nat.eq_dec hit 0) as [E|N].
    + assert (Z : h = 0) by (unfold h; rewrite E; apply Qc_of_nat_0). rewrite (Zf Z), Z. ring.
    + assert (LH : 0 < h) by (apply Qc_of_nat_lt; lia). assert (LP : 0 < p) by (apply Qc_of_nat_lt; lia). assert (LO : 0 < o) by (apply Qc_of_nat_lt; lia).
      assert (NH : h <> 0) by (apply Qc_of_nat_pos; lia). assert (NP : p <> 0) by (apply Qc_of_nat_pos; lia). assert (NO : o <> 0) by (apply Qc_of_nat_pos; lia).
      assert (NS : p + o <> 0) by (unfold p, o; rewrite <- Qc_of_nat_add; apply Qc_of_nat_pos; lia).
      rewrite (ratio_div h p), (ratio_div h o) by auto.
      assert (NN : h / p + h / o <> 0).
      { replace (h / p + h / o) with (h * (p + o) / (p * o)) by (field; auto). intros Z.
        assert (Z' : h * (p + o) = 0) by (transitivity (h * (p + o) / (p * o) * (p * o)); [field; auto|rewrite Z; ring]).
        apply Qcmult_integral in Z' as [Z'|Z']; auto. }
      rewrite ratio_div by auto.
      replace (h / p + h / o) with (h * (p + o) / (p * o)) by (field; auto). field. auto.
  - intros ->. apply Zf. apply Qc_of_nat_0.
Qed.

Lemma tally_le f g l : (forall x, f x = true -> g x = true) -> (tally f l <= tally g l)%nat.
Proof.
  intros H. unfold tally. induction l as [|x l IH]; cbn; auto. destruct (f x) eqn:E; [rewrite (H x E); cbn; lia|]. destruct (g x); cbn; lia.
Qed.

Lemma nsum_tally (g : label * label -> label -> bool) (h : label * label -> bool) labels l :
  (forall x, In x l -> List.length (filter (g x) labels) = if h x then 1%nat else 0%nat) ->
  nsum (map (fun s => tally (fun x => g x s) l) labels) = tally h l.
Proof.
  intros H. induction l as [|x l IH].
  - unfold tally. cbn. induction labels; cbn; auto. apply IHlabels. intros x [].
  - assert (E : forall ls, nsum (map (fun s => tally (fun x => g x s) (x :: l)) ls) =
      (List.length (filter (g x) ls) + nsum (map (fun s => tally (fun x => g x s) l) ls))%nat).
    { induction ls as [|s ls IHs]; auto. cbn [map nsum fold_right filter] in *. unfold nsum in IHs. rewrite IHs.
      unfold tally at 1. cbn [filter]. fold nsum. destruct (g x s); cbn [List.length]; unfold tally; lia. }
    rewrite E, IH by (intros; apply H; right; auto). rewrite (H x) by (left; auto).
    unfold tally. cbn [filter]. destruct (h x); cbn; auto.
Qed.

Lemma one_of (a : label) labels : NoDup labels -> In a labels -> List.length (filter (fun s => label_eqb a s) labels) = 1%nat.
Proof.
  induction 1 as [|x l Hx ND IH]; intros H; [destruct H|]. cbn. destruct (label_eqb_spec a x) as [->|N].
  - cbn. f_equal. clear -Hx. induction l as [|y l IH]; auto. cbn. destruct (label_eqb_spec x y) as [->|]; [exfalso; apply Hx; left; auto|].
    apply IH. intros Y; apply Hx; right; auto.
  - destruct H as [->|H]; [congruence|]. auto.
Qed.

Lemma tally_true l : tally (fun _ => true) l = List.length l.
Proof. unfold tally. induction l; cbn; auto. Qed.

Section Overall.
  Variables (l : list (label * label)) (labels : list label).
  Hypothesis ND : NoDup labels.
  Hypothesis In1 : forall x, In x l -> In (fst x) labels /\ In (snd x) labels.

  Definition hits : nat := tally (fun x => label_eqb (fst x) (snd x)) l.

  Lemma sum_hits : nsum (map (fun s => tally (fun tp => label_eqb (fst tp) s && label_eqb (snd tp) s) l) labels) = hits.
  Proof.
    unfold hits. apply (nsum_tally (fun tp s => label_eqb (fst tp) s && label_eqb (snd tp) s) (fun x => label_eqb (fst x) (snd x))).
    intros x Hx. destruct (In1 x Hx) as [A B]. destruct (label_eqb_spec (fst x) (snd x)) as [E|N].
    - rewrite <- (one_of (fst x) labels ND A). f_equal. apply filter_ext. intros s. rewrite <- E. destruct (label_eqb (fst x) s); auto.
    - clear -N. induction labels as [|s ls IH]; auto. cbn.
      destruct (label_eqb_spec (fst x) s) as [<-|]; cbn; auto. destruct (label_eqb_spec (snd x) (fst x)); [congruence|auto].
  Qed.
  Lemma sum_pred : nsum (map (fun s => tally (fun tp => label_eqb (snd tp) s) l) labels) = List.length l.
  Proof. rewrite <- tally_true. apply (nsum_tally (fun tp s => label_eqb (snd tp) s)). intros x Hx. apply one_of; auto. apply In1; auto. Qed.
  Lemma sum_occ : nsum (map (fun s => tally (fun tp => label_eqb (fst tp) s) l) labels) = List.length l.
  Proof. rewrite <- tally_true. apply (nsum_tally (fun tp s => label_eqb (fst tp) s)). intros x Hx. apply one_of; auto. apply In1; auto. Qed.

  Lemma micro_describes : describes (micro l labels) hits (List.length l) (List.length l).
  Proof.
    unfold micro. rewrite sum_hits, sum_pred, sum_occ. apply metric_describes; unfold hits; rewrite <- tally_true; apply tally_le; auto.
  Qed.

  Lemma Qc_of_nat_nsum {A} (g : A -> nat) m : Qc_of_nat (nsum (map g m)) = Qsum (fun x => Qc_of_nat (g x)) m.
  Proof. induction m as [|x m IH]; [reflexivity|]. cbn [map nsum fold_right]. rewrite Qc_of_nat_add, Qsum_cons. f_equal. exact IH. Qed.

  Lemma label_describes s : describes (label_metric l s) (tally (fun tp => label_eqb (fst tp) s && label_eqb (snd tp) s) l)
    (tally (fun tp => label_eqb (snd tp) s) l) (tally (fun tp => label_eqb (fst tp) s) l).
  Proof. apply metric_describes; apply tally_le; intros x H; apply andb_true_iff in H; tauto. Qed.

  Hypothesis NE : l <> [].

  Lemma weighted_recall : m_recall (average (fun m => Qc_of_nat (m_support m)) (map (label_metric l) labels)) =
    Qc_of_nat hits / Qc_of_nat (List.length l).
  Proof.
    unfold average. cbn [m_recall]. unfold mean. rewrite !Qsum_map.
    replace (Qsum (fun x => Qc_of_nat (m_support (label_metric l x))) labels) with (Qc_of_nat (List.length l)).
    2:{ rewrite <- sum_occ. rewrite Qc_of_nat_nsum. reflexivity. }
    replace (Qsum (fun x => Qc_of_nat (m_support (label_metric l x)) * m_recall (label_metric l x)) labels) with (Qc_of_nat hits).
    2:{ rewrite <- sum_hits. rewrite Qc_of_nat_nsum. apply Qsum_ext. intros s _. destruct (label_describes s) as (-> & _ & _ & R & _). rewrite <- R. ring. }
    apply ratio_div. apply Qc_of_nat_pos. destruct l; [congruence|cbn; lia].
  Qed.

  Lemma support_total : m_support (average (fun m => Qc_of_nat (m_support m)) (map (label_metric l) labels)) = List.length l.
  Proof. unfold average. cbn [m_support]. rewrite map_map. apply sum_occ. Qed.
End Overall.

(** *** The names *)
Lemma in_chars_app c a e : in_chars c (a ++ e) = (in_chars c a || in_chars c e)%bool.
Proof. induction a as [|x a IH]; cbn; auto. rewrite IH. destruct (Ascii.eqb c x); auto. Qed.

Lemma col_name_underscore v s : in_chars "_" (col_name v s) = true.
Proof. unfold col_name. rewrite !in_chars_app. cbn. rewrite orb_true_r. auto. Qed.

Lemma dget_app {V} (a c : list (string * V)) k : ~ In k (map fst a) -> dget String.eqb (a ++ c) k = dget String.eqb c k.
Proof.
  induction a as [|[x y] a IH]; cbn; intros N; auto. destruct (String.eqb_spec k x) as [->|]; [exfalso; apply N; auto|]. apply IH. tauto.
Qed.

Lemma dget_combine {A V} (name : A -> string) (g : A -> V) l c s : NoDup (map name l) -> In s l ->
  dget String.eqb (combine (map name l) (map g l) ++ c) (name s) = Some (g s).
Proof.
  induction l as [|x l IH]; intros ND H; [destruct H|]. cbn in *. inversion ND as [|? ? Hx ND']; subst.
  destruct (String.eqb_spec (name s) (name x)) as [E|N].
  - destruct H as [->|H]; auto. exfalso. apply Hx. rewrite <- E. apply in_map; auto.
  - destruct H as [->|H]; [congruence|]. apply IH; auto.
Qed.

Lemma combine_names {A V} (name : A -> string) (g : A -> V) l : map fst (combine (map name l) (map g l)) = map name l.
Proof. induction l; cbn; congruence. Qed.

Section Report.
  Variables (l : list (label * label)) (labels : list label) (v : string).
  Hypothesis NDn : NoDup (map (col_name v) labels).

  Let rep := sk_report l labels (map (col_name v) labels).

  Lemma rep_state s : In s labels -> dget String.eqb rep (col_name v s) = Some (EMetric (label_metric l s)).
  Proof. intros H. unfold rep, sk_report. rewrite map_map. apply (dget_combine (col_name v) (fun s => EMetric (label_metric l s))); auto. Qed.

  Lemma rep_other k : in_chars "_" k = false -> dget String.eqb rep k =
    dget String.eqb
      [ if (forallb (fun s => memb label_eqb s (map fst l ++ map snd l)) labels &&
            forallb (fun s => memb label_eqb s labels) (map fst l ++ map snd l))%bool
        then ("accuracy", ENumber (m_precision (micro l labels))) else ("micro avg", EMetric (micro l labels));
        ("macro avg", EMetric (average (fun _ => 1) (map (label_metric l) labels)));
        ("weighted avg", EMetric (average (fun m => Qc_of_nat (m_support m)) (map (label_metric l) labels))) ] k.
  Proof.
    intros H. unfold rep, sk_report. apply dget_app. rewrite map_map, (combine_names (col_name v) (fun s => EMetric (label_metric l s))). intros I.
    apply in_map_iff in I as (s & E & _). rewrite <- E, col_name_underscore in H. discriminate.
  Qed.
End Report.

Lemma combine_fst {A B} (l : list A) : forall m : list B, List.length m = List.length l -> map fst (combine l m) = l.
Proof. induction l; intros [|y m] E; cbn in *; try discriminate; auto. f_equal. auto. Qed.
Lemma combine_snd {A B} (l : list A) : forall m : list B, List.length m = List.length l -> map snd (combine l m) = m.
Proof. induction l; intros [|y m] E; cbn in *; try discriminate; auto. f_equal. auto. Qed.

Section Classification.
  Variables (b : bn) (S : list (string * list label)) (fs : list (string * frame)).
  Variables (d : df) (v : string) (f : frame) (pg : predictor).
  Hypothesis F : fitted b S fs.
  Hypothesis Hf : In (v, f) fs.
  Hypothesis PC : incl (f_names f) (d_cols d).
  Hypothesis VC : In v (d_cols d).
  Hypothesis Rows : forall r, In r (d_rows d) -> exists u, parent_values r (f_names f) u /\ In u (f_columns f).
  Hypothesis NE : d_rows d <> [].

  (** Whether a row's state and its prediction are those asked for. *)
  Definition both (s : label) (x : label * label) : bool := label_eqb (fst x) s && label_eqb (snd x) s.
  Definition predicted (s : label) (x : label * label) : bool := label_eqb (snd x) s.
  Definition actual (s : label) (x : label * label) : bool := label_eqb (fst x) s.

  Lemma all_some_Some {A} (l : list A) : all_some (map Some l) = Some l.
  Proof. induction l; cbn; auto. rewrite IHl. auto. Qed.

  Theorem report_rows ts : map (fun r => at_col r v) (d_rows d) = map Some ts -> one_kind (ts ++ declared S v) ->
    exists preds rep row, predict pg b d v = Ok preds /\ List.length preds = List.length ts /\ classification_report pg b d v = Ok rep /\
      (forall s, In s (declared S v) -> dget String.eqb rep (col_name v s) = Some (EMetric (row s)) /\
         describes (row s) (tally (both s) (combine ts preds)) (tally (predicted s) (combine ts preds)) (tally (actual s) (combine ts preds))) /\
      (exists M, dget String.eqb rep "macro avg" = Some (EMetric M) /\
         let k := Qc_of_nat (List.length (declared S v)) in
         m_precision M * k = Qsum (fun s => m_precision (row s)) (declared S v) /\
         m_recall M * k = Qsum (fun s => m_recall (row s)) (declared S v) /\
         m_f1 M * k = Qsum (fun s => m_f1 (row s)) (declared S v)) /\
      ((forall t, In t ts -> In t (declared S v)) ->
        let h := Qc_of_nat (tally (fun x => label_eqb (fst x) (snd x)) (combine ts preds)) in
        let n := Qc_of_nat (List.length (d_rows d)) in
        ((forall s, In s (declared S v) -> In s ts \/ In s preds) ->
           dget String.eqb rep "accuracy" = Some (ENumber (h / n)) /\ dget String.eqb rep "micro avg" = None) /\
        ((exists s, In s (declared S v) /\ ~ In s ts /\ ~ In s preds) ->
           dget String.eqb rep "accuracy" = None /\
           exists m, dget String.eqb rep "micro avg" = Some (EMetric m) /\ m_precision m = h / n /\ m_recall m = h / n /\ m_f1 m = h / n) /\
        exists W, dget String.eqb rep "weighted avg" = Some (EMetric W) /\ m_recall W = h / n /\ m_support W = List.length (d_rows d)).
  Proof.
    intros ET OKk.
    destruct (report_spec b S fs d v f pg F Hf PC VC Rows) as (preds & labels & EA & NDl & NDn & Il & EP & LP & IP).
    destruct (fitted_inv b S fs F) as (_ & _ & DS & P & _).
    assert (Hv : In v (b_nodes b)) by (apply (Permutation_in _ P), in_map_iff; exists (v, f); auto).
    destruct (DS v Hv) as (NEd & NDd & OKd).
    assert (PL : Permutation labels (declared S v)) by (apply NoDup_Permutation; auto).
    assert (LT : List.length ts = List.length (d_rows d)) by (rewrite <- (map_length Some ts), <- ET, map_length; auto).
    set (l := combine ts preds). set (rep := sk_report l labels (map (col_name v) labels)).
    assert (Ll : List.length l = List.length (d_rows d)) by (unfold l; rewrite combine_length; lia).
    exists preds, rep, (label_metric l). split; auto. split; [lia|]. split; [|split; [|split]].
    - unfold classification_report. rewrite EA. cbn [bind]. rewrite ET, all_some_Some.
      destruct ts as [|t ts']; [exfalso; apply NE; destruct (d_rows d); [auto|discriminate LT]|].
      replace (forallb _ _) with true; auto. symmetry. apply forallb_forall. intros s Hs.
      assert (Hin : In s ((t :: ts') ++ declared S v)).
      { apply in_app_or in Hs as [Hs|Hs]; apply in_or_app; [left; auto|right; apply Il; auto]. }
      assert (Ht : In t ((t :: ts') ++ declared S v)) by (left; auto).
      destruct OKk as [K|K]; destruct (K s Hin) as [y ->], (K t Ht) as [z ->]; reflexivity.
    - intros s Hs. split; [apply rep_state; auto; apply Il; auto|apply label_describes].
    - unfold rep. rewrite rep_other by (auto; reflexivity).
      exists (average (fun _ => 1) (map (label_metric l) labels)). split; [destruct (_ && _)%bool; reflexivity|].
      assert (NK : Qc_of_nat (List.length (declared S v)) <> 0) by (apply Qc_of_nat_pos; destruct (declared S v); [congruence|cbn; lia]).
      assert (G : forall g, mean (fun _ => 1) g (map (label_metric l) labels) * Qc_of_nat (List.length (declared S v)) =
                            Qsum (fun s => g (label_metric l s)) (declared S v)).
      { intros g. unfold mean. rewrite !Qsum_map, Qsum_const, (Permutation_length PL), Qcmult_1_r, ratio_div by auto.
        rewrite (Qsum_ext (fun x => 1 * g (label_metric l x)) (fun s => g (label_metric l s))) by (intros; ring).
        rewrite (Qsum_perm _ _ _ PL). field. auto. }
      cbn zeta. unfold average. cbn [m_precision m_recall m_f1]. auto.
    - intros Dt h n.
      assert (I1 : forall x, In x l -> In (fst x) labels /\ In (snd x) labels).
      { intros [x y] Hx. split; [apply Il, Dt; eapply in_combine_l; eauto|apply IP; eapply in_combine_r; eauto]. }
      assert (Nl : l <> []) by (intros E; apply NE; rewrite E in Ll; destruct (d_rows d); [auto|discriminate Ll]).
      assert (Ef : map fst l = ts) by (unfold l; apply combine_fst; lia).
      assert (Es : map snd l = preds) by (unfold l; apply combine_snd; lia).
      assert (Nn : n <> 0) by (unfold n; apply Qc_of_nat_pos; destruct (d_rows d); [congruence|cbn; lia]).
      destruct (micro_describes l labels NDl I1) as (D1 & D2 & D3 & D4 & D5 & D6 & D7). change (Qc_of_nat (hits l)) with h in D2, D4, D6.
      rewrite Ll in D2, D4, D6. rewrite Qc_of_nat_add in D6. fold n in D2, D4, D6.
      assert (E1 : m_precision (micro l labels) = h / n) by (transitivity (m_precision (micro l labels) * n / n); [field; auto|rewrite D2; reflexivity]).
      assert (E2 : m_recall (micro l labels) = h / n) by (transitivity (m_recall (micro l labels) * n / n); [field; auto|rewrite D4; reflexivity]).
      assert (E3 : m_f1 (micro l labels) = h / n).
      { transitivity (m_f1 (micro l labels) * (n + n) / (1 + 1) / n); [field; split; auto; apply two_neq|].
        rewrite D6. field. split; auto. apply two_neq. }
      assert (Seen2 : forallb (fun s => memb label_eqb s labels) (map fst l ++ map snd l) = true).
      { apply forallb_forall. intros s Hs. apply (memb_In _ label_eqb_spec). rewrite Ef, Es in Hs. apply in_app_or in Hs as [Hs|Hs]; [apply Il, Dt; auto|auto]. }
      split; [|split].
      + intros All. unfold rep. rewrite !rep_other by (auto; reflexivity). rewrite Seen2.
        replace (forallb (fun s => memb label_eqb s (map fst l ++ map snd l)) labels) with true.
        2:{ symmetry. apply forallb_forall. intros s Hs. apply (memb_In _ label_eqb_spec). rewrite Ef, Es. apply in_or_app. apply All, Il; auto. }
        cbn [andb]. rewrite <- E1. split; reflexivity.
      + intros (s & Hs & N1 & N2). unfold rep. rewrite !rep_other by (auto; reflexivity).
        replace (forallb (fun s => memb label_eqb s (map fst l ++ map snd l)) labels) with false.
        2:{ symmetry. apply not_true_is_false. intros T. rewrite forallb_forall in T. apply Il in Hs. apply T in Hs.
            apply (memb_In _ label_eqb_spec) in Hs. rewrite Ef, Es in Hs. apply in_app_or in Hs as [Hs|Hs]; auto. }
        cbn [andb]. split; [reflexivity|]. exists (micro l labels). split; [reflexivity|]. auto.
      + unfold rep. rewrite !rep_other by (auto; reflexivity).
        exists (average (fun m => Qc_of_nat (m_support m)) (map (label_metric l) labels)). split; [destruct (_ && _)%bool; reflexivity|].
        rewrite weighted_recall, support_total by auto. rewrite Ll. split; reflexivity.
  Qed.
End Classification.
