(** * EvalProofs: which truth value meets which score. *)
From Coq Require Import List Bool Arith ZArith Lia String Ascii QArith Qcanon Permutation Sorted.
From Verif Require Import Base QcX SmProofs SmHist NetModel NetProofs NetFit NetThms EvalModel.
From Verif Require BbnProofs.
Import ListNotations.
Local Open Scope string_scope.
Local Open Scope list_scope.

(** The pairs a user expects: for each row and state, whether the row has the state, and the
    probability of the state given the row's parents. *)
Definition wanted_pairs (f : frame) (v : string) (states : list label) (rows : list (list (string * option label)))
    (U : list (string * option label) -> list label) : list (bool * cell) :=
  flat_map (fun r => map (fun s => (holds r v s, CNum (cell_of f s (U r)))) states) rows.

Lemma select_spec {A} (names : list string) (F : string -> A) wanted : NoDup names -> incl wanted names ->
  select names (map F names) wanted = map F wanted.
Proof.
  intros ND I. unfold select. rewrite combine_map_r.
  induction wanted as [|n w IH]; cbn [flat_map map]; auto.
  rewrite IH by (intros x Hx; apply I; right; auto). 
  assert (H : In n names) by (apply I; left; auto).
  replace (filter (fun nx => String.eqb n (fst nx)) (map (fun x => (x, F x)) names)) with [(n, F n)]; auto.
  clear -ND H. induction ND as [|x l Hx ND IH]; [destruct H|]. cbn [map filter fst].
  destruct (String.eqb_spec n x) as [<-|Ne].
  - f_equal. symmetry. clear -Hx. induction l as [|y l IH]; cbn; auto.
    destruct (String.eqb_spec n y) as [->|]; [exfalso; apply Hx; left; auto|]. apply IH. intros Y; apply Hx; right; auto.
  - destruct H as [->|H]; [congruence|]. apply IH; auto.
Qed.

Lemma Forall2_map_eq {A B C} (R : A -> B -> Prop) (f : B -> C) (g : A -> C) l m :
  Forall2 R l m -> (forall a b, In a l -> R a b -> f b = g a) -> map f m = map g l.
Proof.
  induction 1 as [|a b l m H F IH]; intros E; cbn; auto. f_equal; [apply E; auto; left; auto|]. apply IH. intros; apply E; auto. right; auto.
Qed.

Lemma concat_same_length {A B C} (f : A -> list B) (g : A -> list C) l :
  (forall x, List.length (f x) = List.length (g x)) -> List.length (List.concat (map f l)) = List.length (List.concat (map g l)).
Proof. intros E. induction l as [|x l IH]; cbn; auto. rewrite !app_length, E, IH. auto. Qed.

Lemma combine_app {A B} (a a' : list A) (c c' : list B) : List.length a = List.length c ->
  combine (a ++ a') (c ++ c') = combine a c ++ combine a' c'.
Proof. revert c. induction a as [|x a IH]; intros [|y c] E; cbn in *; try discriminate; auto. f_equal. apply IH. lia. Qed.

Lemma combine_concat {A B C} (f : A -> list B) (g : A -> list C) l :
  (forall x, List.length (f x) = List.length (g x)) ->
  combine (List.concat (map f l)) (List.concat (map g l)) = flat_map (fun x => combine (f x) (g x)) l.
Proof. intros E. induction l as [|x l IH]; cbn; auto. rewrite combine_app by auto. rewrite IH. auto. Qed.

Lemma combine_maps {A B C} (f : A -> B) (g : A -> C) l : combine (map f l) (map g l) = map (fun x => (f x, g x)) l.
Proof. induction l; cbn; congruence. Qed.

Lemma parent_values_fun r ps u u' : parent_values r ps u -> parent_values r ps u' -> u = u'.
Proof.
  intros H. revert u'. induction H as [|p x ps u E F IH]; intros u' H'; inversion H'; subst; auto. f_equal; [congruence|auto].
Qed.

Lemma NoDup_map_on {A B} (g : A -> B) l : NoDup l -> (forall x y, In x l -> In y l -> g x = g y -> x = y) -> NoDup (map g l).
Proof.
  induction 1 as [|x l Hx ND IH]; intros I; cbn; constructor.
  - intros H. apply in_map_iff in H as (y & Ey & Hy). apply I in Ey; [congruence|right; auto|left; auto].
  - apply IH. intros; apply I; auto; right; auto.
Qed.

Section Roc.
  Variables (b : bn) (S : list (string * list label)) (fs : list (string * frame)).
  Variables (d : df) (v : string) (f : frame) (order : list label) (pg : prob_predictor).
  Hypothesis F : fitted b S fs.
  Hypothesis Hf : In (v, f) fs.
  Hypothesis PC : incl (f_names f) (d_cols d).
  Hypothesis VC : In v (d_cols d).
  Hypothesis PO : Permutation order (declared S v).
  Hypothesis NC : forall s, In s (declared S v) -> ~ In (col_name v s) (f_names f).
  Variable U : list (string * option label) -> list label.
  Hypothesis Rows : forall r, In r (d_rows d) -> parent_values r (f_names f) (U r) /\ In (U r) (f_columns f) /\
    exists s, at_col r v = Some s /\ In s (declared S v).
  (** No state begins with a character of the node's name or an underscore. *)
  Hypothesis Strip : forall s, In s (declared S v) -> lstrip (v ++ "_") (col_name v s) = str_of s.
  (** The states are in the same order when they are compared as strings. *)
  Hypothesis Order : map str_of (lsort (declared S v)) = ssort (map str_of (declared S v)).

  Lemma truth_ok : ground_truth order b d v =
    Ok (lsort (declared S v), map (fun r => map (fun s => holds r v s) (lsort (declared S v))) (d_rows d)).
  Proof.
    destruct (fitted_inv b S fs F) as (NO & NS & DS & P & _).
    assert (Hv : In v (b_nodes b)) by (apply (Permutation_in _ P), in_map_iff; exists (v, f); auto).
    destruct (DS v Hv) as (NE & ND & OK).
    unfold ground_truth. replace (smem v (d_cols d)) with true by (symmetry; apply (memb_In _ String.eqb_spec); auto). cbn [negb].
    set (u := unique olabel_eqb (map (fun r => at_col r v) (d_rows d))).
    assert (Iu : forall x, In x (drop_none u) <-> exists r, In r (d_rows d) /\ at_col r v = Some x).
    { intros x. rewrite drop_none_In. unfold u. rewrite (proj2 (unique_spec _ olabel_eqb_spec _)), in_map_iff.
      split; intros (r & A & B); eauto. }
    assert (Id : incl (drop_none u) (declared S v)).
    { intros x Hx. apply Iu in Hx as (r & Hr & Ex). destruct (Rows r Hr) as (_ & _ & s & Es & Hs). congruence. }
    rewrite sorted_labels_ok by (eapply one_kind_sub; eauto). cbn [bind]. rewrite NS. cbn [bind].
    destruct (dget String.eqb S v) as [l|] eqn:El.
    2:{ exfalso. apply NE. unfold declared. rewrite El. auto. }
    set (present := lsort (drop_none u)).
    assert (NDp : NoDup present) by (apply isort_NoDup, drop_none_NoDup, (unique_spec _ olabel_eqb_spec)).
    assert (PM : Permutation (present ++ filter (fun s => negb (memb label_eqb s present)) order) (declared S v)).
    { apply NoDup_Permutation; auto.
      - apply BbnProofs.NoDup_app_intro; auto.
        + apply NoDup_filter. eapply Permutation_NoDup; [symmetry; exact PO|auto].
        + intros x Hx Hy. apply filter_In in Hy as [_ Hy]. apply negb_true_iff in Hy.
          apply (memb_In _ label_eqb_spec) in Hx. congruence.
      - intros x. rewrite in_app_iff, filter_In. split.
        + intros [H|[H _]]; [apply Id, lsort_In; auto|apply (Permutation_in _ PO); auto].
        + intros H. destruct (memb label_eqb x present) eqn:M; [left; apply (memb_In _ label_eqb_spec); auto|].
          right. split; auto. apply (Permutation_in _ (Permutation_sym PO)); auto. }
    assert (OK2 : one_kind (present ++ filter (fun s => negb (memb label_eqb s present)) order)).
    { eapply one_kind_sub; [|exact OK]. intros x Hx. apply (Permutation_in _ PM); auto. }
    rewrite sorted_labels_ok by auto. cbn [bind]. rewrite (lsort_perm _ _ PM). f_equal. f_equal.
    apply map_ext_in. intros r Hr. apply map_ext. intros s. unfold is_value, holds.
    destruct (at_col r v) as [x|] eqn:Ex; [|apply andb_false_r].
    destruct (label_eqb_spec x s) as [->|]; [|apply andb_false_r]. rewrite andb_true_r.
    apply (memb_In _ label_eqb_spec). apply lsort_In, Iu. eauto.
  Qed.

  Theorem roc_paired : roc_pairs order pg b d v = Ok (wanted_pairs f v (lsort (declared S v)) (d_rows d) U).
  Proof.
    unfold roc_pairs. rewrite truth_ok. cbn [bind snd].
    destruct (fitted_inv b S fs F) as (NO & NS & DS & P & _).
    assert (Hv : In v (b_nodes b)) by (apply (Permutation_in _ P), in_map_iff; exists (v, f); auto).
    destruct (DS v Hv) as (NE & ND & OK).
    destruct (predictions b S fs d v f order pg F Hf PC PO NC) as (out & E & Fo).
    { intros r Hr. destruct (Rows r Hr) as (A & B & _). eauto. }
    rewrite E. cbn [bind fst snd].
    assert (EO : out = map (fun r => map (fun s => CNum (cell_of f s (U r))) order) (d_rows d)).
    { rewrite <- (map_id out). eapply Forall2_map_eq; [exact Fo|]. intros r o Hr (u & Pu & -> & _).
      destruct (Rows r Hr) as (A & _). rewrite (parent_values_fun r _ _ _ A Pu). auto. }
    assert (EN : map (lstrip (v ++ "_")) (map (col_name v) order) = map str_of order).
    { rewrite map_map. apply map_ext_in. intros s Hs. apply Strip. apply (Permutation_in _ PO); auto. }
    rewrite EN, EO, !map_map.
    assert (SN : ssort (map str_of order) = map str_of (lsort (declared S v))).
    { rewrite Order. apply ssort_perm_eq. apply Permutation_map. auto. }
    assert (Sel : forall r, select (map str_of order) (map (fun s => CNum (cell_of f s (U r))) order) (ssort (map str_of order)) =
                            map (fun s => CNum (cell_of f s (U r))) (lsort (declared S v))).
    { intros r. rewrite SN.
      assert (NDo : NoDup order) by (eapply Permutation_NoDup; [symmetry; exact PO|auto]).
      (* a function from names back to values *)
      set (back := fun n => match find (fun s => String.eqb (str_of s) n) order with Some s => s | None => LInt 0 end).
      assert (Bk : forall s, In s order -> back (str_of s) = s).
      { intros s Hs. unfold back. destruct (find _ order) as [t|] eqn:Ef.
        - apply find_some in Ef as [Ht Et]. apply String.eqb_eq in Et.
          apply (str_of_inj (declared S v)); auto; apply (Permutation_in _ PO); auto.
        - apply (find_none _ _ Ef) in Hs. rewrite String.eqb_refl in Hs. discriminate. }
      replace (map (fun s => CNum (cell_of f s (U r))) order) with (map (fun n => CNum (cell_of f (back n) (U r))) (map str_of order)).
      2:{ rewrite map_map. apply map_ext_in. intros s Hs. rewrite Bk; auto. }
      rewrite select_spec.
      - rewrite map_map. apply map_ext_in. intros s Hs. rewrite Bk; [reflexivity|].
        apply (Permutation_in _ (Permutation_sym PO)). apply lsort_In. exact Hs.
      - apply NoDup_map_on; auto. intros x y Hx Hy. apply (str_of_inj (declared S v)); [exact OK| |]; apply (Permutation_in _ PO); assumption.
      - intros n Hn. apply in_map_iff in Hn as (s & <- & Hs). apply in_map. apply (Permutation_in _ (Permutation_sym PO)). apply lsort_In. exact Hs. }
    rewrite (map_ext _ (fun r => map (fun s => CNum (cell_of f s (U r))) (lsort (declared S v)))) by auto.
    rewrite (concat_same_length (fun r => map (fun s => holds r v s) (lsort (declared S v)))
               (fun r => map (fun s => CNum (cell_of f s (U r))) (lsort (declared S v)))) by (intros; rewrite !map_length; auto).
    rewrite Nat.eqb_refl, combine_concat by (intros; rewrite !map_length; auto). f_equal.
    unfold wanted_pairs. apply flat_map_eq. intros r Hr. apply combine_maps.
  Qed.
End Roc.

(** ** Conditions in plain terms *)

(** No state begins with a character of the node's name or an underscore. *)
Definition plain (v : string) (s : label) : Prop :=
  match str_of s with EmptyString => True | String c _ => in_chars c (v ++ "_") = false end.

(** Comparing the states as strings gives the same order. *)
Definition string_order (l : list label) : Prop :=
  forall x y, In x l -> In y l -> label_leb x y = true -> sleb (str_of x) (str_of y) = true.

Lemma lstrip_app chars p t : (forall c, in_chars c p = true -> in_chars c chars = true) -> lstrip chars (p ++ t) = lstrip chars t.
Proof.
  induction p as [|c p IH]; cbn [String.append lstrip]; intros H; auto.
  rewrite (H c) by (cbn; rewrite Ascii.eqb_refl; auto). apply IH. intros x Hx. apply H. cbn. rewrite Hx. apply orb_true_r.
Qed.

Lemma str_app_assoc (a c e : string) : (a ++ (c ++ e))%string = ((a ++ c) ++ e)%string.
Proof. induction a; cbn; congruence. Qed.

Lemma plain_strip v s : plain v s -> lstrip (v ++ "_") (col_name v s) = str_of s.
Proof.
  unfold plain, col_name. intros H. rewrite str_app_assoc, lstrip_app by auto.
  destruct (str_of s) as [|c r]; auto. cbn [lstrip]. rewrite H. auto.
Qed.

Lemma string_order_sort l : string_order l -> map str_of (lsort l) = ssort (map str_of l).
Proof.
  intros H. symmetry. unfold ssort. apply (sorted_perm_unique sleb); [apply sleb_antisym| | |].
  - apply isort_sorted; [apply sleb_total|apply sleb_trans].
  - assert (I : incl (lsort l) l) by (intros x; apply lsort_In).
    pose proof (lsort_sorted l) as SS. induction SS as [|x m SS IH FA]; cbn; constructor.
    + apply IH. intros y Hy; apply I; right; auto.
    + apply Forall_forall. intros y Hy. apply in_map_iff in Hy as (z & <- & Hz). rewrite Forall_forall in FA.
      apply H; [apply I; left; auto|apply I; right; auto|apply FA; auto].
  - rewrite <- isort_perm. apply Permutation_map. apply isort_perm.
Qed.

Theorem roc_spec b S fs d v f order pg U : fitted b S fs -> In (v, f) fs ->
  incl (f_names f) (d_cols d) -> In v (d_cols d) -> Permutation order (declared S v) ->
  (forall s, In s (declared S v) -> ~ In (col_name v s) (f_names f)) ->
  (forall r, In r (d_rows d) -> parent_values r (f_names f) (U r) /\ In (U r) (f_columns f) /\
     exists s, at_col r v = Some s /\ In s (declared S v)) ->
  (forall s, In s (declared S v) -> plain v s) -> string_order (declared S v) ->
  exists l, roc_pairs order pg b d v = Ok l /\ Permutation l (wanted_pairs f v (declared S v) (d_rows d) U).
Proof.
  intros F Hf PC VC PO NC Rows PL SO.
  exists (wanted_pairs f v (lsort (declared S v)) (d_rows d) U). split.
  - apply (roc_paired b S fs d v f order pg F Hf PC VC PO NC U Rows).
    + intros s Hs. apply plain_strip; auto.
    + apply string_order_sort; auto.
  - unfold wanted_pairs. clear. induction (d_rows d) as [|r l IH]; cbn; auto. apply Permutation_app; auto.
    apply Permutation_map. symmetry. apply isort_perm.
Qed.

(** The arguments of the classification report. *)
Theorem report_spec b S fs d v f pg : fitted b S fs -> In (v, f) fs ->
  incl (f_names f) (d_cols d) -> In v (d_cols d) ->
  (forall r, In r (d_rows d) -> exists u, parent_values r (f_names f) u /\ In u (f_columns f)) ->
  exists preds labels, report_args pg b d v = Ok (map (fun r => at_col r v) (d_rows d), preds, labels, map (col_name v) labels) /\
    NoDup labels /\ NoDup (map (col_name v) labels) /\ (forall s, In s labels <-> In s (declared S v)) /\
    predict pg b d v = Ok preds /\ List.length preds = List.length (d_rows d) /\ (forall x, In x preds -> In x labels).
Proof.
  intros F Hf PC VC Rows. destruct (best_state b S fs d v f pg F Hf PC Rows) as (out & E & Fo).
  destruct (fitted_inv b S fs F) as (NO & NS & DS & P & _).
  assert (Hv : In v (b_nodes b)) by (apply (Permutation_in _ P), in_map_iff; exists (v, f); auto).
  destruct (DS v Hv) as (NE & ND & OK).
  exists out, (lsort (declared S v)). unfold report_args. rewrite E. cbn [bind]. rewrite NS. cbn [bind].
  destruct (dget String.eqb S v) as [l|] eqn:El.
  2:{ exfalso. apply NE. unfold declared. rewrite El. auto. }
  assert (Ed : declared S v = l) by (unfold declared; rewrite El; auto). rewrite Ed in *.
  rewrite sorted_labels_ok by auto. cbn [bind].
  replace (smem v (d_cols d)) with true by (symmetry; apply (memb_In _ String.eqb_spec); auto). cbn [negb].
  assert (NDs : NoDup (lsort l)) by (apply isort_NoDup; auto).
  split; [reflexivity|]. split; [auto|]. split.
  { apply NoDup_map_on; auto. intros x y Hx Hy. apply (col_name_inj l); auto; apply lsort_In; auto. }
  split; [intros; apply lsort_In|]. split; [auto|]. split.
  { symmetry. clear -Fo. induction Fo; cbn; congruence. }
  intros x Hx. apply lsort_In. clear -Fo Hx. induction Fo as [|r y rs out (u & _ & Hy & _) Fo IH]; [destruct Hx|].
  destruct Hx as [->|Hx]; auto.
Qed.
