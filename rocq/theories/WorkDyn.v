(** * WorkDyn: from time series to a network that answers queries. *)
From Coq Require Import List Bool Arith ZArith Lia String Ascii QArith Qcanon Permutation Relations.
From Verif Require Import Base Digraph SmModel SmProofs SmHist SmThms Names NotearsModel NotearsProofs NotearsThms.
From Verif Require Import TransModel TransThms DynoModel DynoProofs DynoThms.
From Verif Require Import NetModel NetProofs NetFit NetThms NetBridge Workflow.
From Verif Require DiscModel DiscThms InferModel.
Import ListNotations.
Local Open Scope string_scope.
Local Open Scope list_scope.
Local Open Scope nat_scope.

(** ** The learned structure *)
Lemma reached_pandas_dynamic fuel opt eh l p par t g : from_pandas_dynamic fuel opt eh l p par t = Ok g -> reached g.
Proof.
  unfold from_pandas_dynamic, learn_pandas_dynamic. intros H. apply bind_ok in H as (r & H & E). apply bind_ok in H as (tr & _ & H). apply bind_ok in H as (o & _ & H).
  destruct o as [|X Xl]; [discriminate|]. destruct l as [|s l]; [discriminate|]. apply bind_ok in H as (tz & _ & H). apply bind_ok in H as (r0 & _ & H).
  apply bind_ok in H as (es & _ & H). apply bind_ok in H as (g' & H & E'). injection E' as <-. cbn [fst] in E. injection E as <-.
  match type of H with context [fold_left add_node ?ns []] => apply (reached_result (fold_left add_node ns []) (AddWeighted es "weight" "learned" [])); auto; [apply reached_nodes|constructor] end.
Qed.

Lemma dgraph_of_weighted g d p name o w keep : wf g -> dgraph_of g d p name o w keep -> weighted g.
Proof.
  intros W (N & E & A) u v a H. assert (I : In (u, v) (edges g)) by (apply edges_In; eauto).
  apply E in I as (k & i & j & Hk & Hi & Hj & -> & -> & K). rewrite (A k i j Hk Hi Hj K) in H. injection H as <-. eexists. reflexivity.
Qed.

(** ** Names *)
Lemma word_chars_app a b : InferModel.word_chars (a ++ b)%string = InferModel.word_chars a && InferModel.word_chars b.
Proof. induction a as [|c a IH]; cbn; auto. rewrite IH. apply andb_assoc. Qed.

Lemma word_chars_dec k : InferModel.word_chars (dec k) = true.
Proof.
  pose proof (dec_digits k) as D. revert D. generalize (dec k). induction s as [|c s IH]; auto. cbn [all_chars InferModel.word_chars]. intros H.
  apply andb_true_iff in H as [H1 H2]. change (InferModel.is_digit c) with (is_digit c). rewrite H1. cbn. auto.
Qed.

Lemma lag_name_identifier c k : InferModel.is_identifier c = true -> InferModel.is_identifier (lag_name c k) = true.
Proof.
  destruct c as [|a c]; [discriminate|]. unfold lag_name. cbn [InferModel.is_identifier String.append]. intros H. apply andb_true_iff in H as [-> H].
  rewrite word_chars_app, H. cbn [andb]. change (String "_" (String "l" (String "a" (String "g" (dec k))))) with ("_lag" ++ dec k)%string.
  rewrite word_chars_app, word_chars_dec. reflexivity.
Qed.

Lemma lag_name_self c k : lag_name c k <> "self".
Proof.
  intros E. apply (f_equal chars) in E. unfold lag_name in E. rewrite !chars_app in E.
  assert (H : In "_"%char (chars "self")) by (rewrite <- E; apply in_or_app; right; left; reflexivity). cbn in H. intuition discriminate.
Qed.

(** ** From the series to answers *)
Theorem dynamic_workflow fuel opt eh l p par t g : respects_bounds opt -> NoDup (variables l) ->
  (forall c, In c (variables l) -> InferModel.is_identifier c = true) ->
  from_pandas_dynamic fuel opt eh l p par t = Ok g ->
  exists gd, threshold_till_dag g = (gd, Ok tt) /\
    match get_largest_subgraph gd with
    | None => edges gd = []
    | Some s => edges s <> [] /\
        (forall u v, In (u, v) (edges s) -> In (u, v) (edges g) /\ exists k a b, k <= p /\ In a (variables l) /\ In b (variables l) /\
           u = LStr (lag_name a k) /\ v = LStr (lag_name b 0) /\ ~ (k = 0 /\ a = b) /\ ~ dbanned t k a b) /\
        forall d method prior ess, NetBridge.complete d -> (forall c k, In c (variables l) -> k <= p -> In (lag_name c k) (d_cols d)) -> sound_way method prior ess ->
          answers_from s d method prior ess
    end.
Proof.
  intros RB ND Id E. pose proof (reached_pandas_dynamic _ _ _ _ _ _ _ _ E) as R. pose proof (reached_wf g R) as W.
  destruct (pandas_dynamic_result _ _ _ _ _ _ _ _ ND E) as (N & _ & v & _ & G). pose proof (dgraph_of_weighted _ _ _ _ _ _ _ W G) as Wt.
  assert (In1 : forall c, In c (nodes g) -> exists a k, In a (variables l) /\ k <= p /\ c = LStr (lag_name a k)).
  { intros c Hc. rewrite N in Hc. apply in_flat_map in Hc as (a & Ha & Hc). apply in_map_iff in Hc as (k & <- & Hk). apply in_seq in Hk. exists a, k. repeat split; auto. lia. }
  destruct (workflow g (nodes g) R Wt) as (gd & Ed & H); [apply incl_refl| |].
  { intros c Hc. destruct (In1 c Hc) as (a & k & Ha & _ & ->). eexists. split; [reflexivity|]. split; [apply lag_name_identifier; auto|apply lag_name_self]. }
  exists gd. split; auto. destruct (get_largest_subgraph gd) as [s|]; auto. destruct H as (Ne & Ic & At & An). split; auto. split.
  - intros x y H. destruct (At x y H) as (a & b & _ & Hb & _). assert (I : In (x, y) (edges g)) by (apply edges_In; eauto). split; auto.
    exact (pandas_dynamic_no_ban _ _ _ _ _ _ _ _ RB ND E x y I).
  - intros d m pr es Cd Ec Sw. apply An; auto. intros c Hc. apply Ic in Hc. destruct (In1 _ Hc) as (a & k & Ha & Hk & [= ->]). auto.
Qed.

(** The table that the data of the network come from: a row for each time with p predecessors, a column for each variable and
    lag, and in it the interval of the value at that lag, as found by the discretiser that [ds] gives for the column. *)
Definition lagged_intervals (names : list string) (p : nat) (l : list series) (ds : string -> DiscModel.disc) (d : df) : Prop :=
  List.length (d_rows d) = List.length (expected p l) /\
  forall c k, In c names -> k <= p -> In (lag_name c k) (d_cols d) /\
    exists vals out, Forall2 (fun st x => value (fst st) (snd st - Z.of_nat k) c = Some x) (expected p l) vals /\
      DiscModel.disc_fit_transform (ds (lag_name c k)) vals = Ok out /\
      forall i r, nth_error (d_rows d) i = Some r -> at_col r (lag_name c k) = option_map (fun n => LInt (Z.of_nat n)) (nth_error out i).

Lemma dget_nth {B} (x : B) names row : forall j c b, NoDup names -> nth_error names j = Some c -> dget String.eqb (combine names row) c = Some b -> nth j row x = b.
Proof.
  revert row. induction names as [|n names IH]; intros row j c b ND H; [destruct j; discriminate|]. apply NoDup_cons_iff in ND as [Nn ND].
  destruct row as [|y row]; [discriminate|]. cbn [combine dget]. destruct j as [|j]; cbn in H.
  - injection H as ->. rewrite String.eqb_refl. intros [= ->]. reflexivity.
  - destruct (String.eqb_spec c n) as [->|Ne]; [exfalso; apply Nn; eapply nth_error_In; eauto|]. intros Hd. cbn [nth]. eapply IH; eauto.
Qed.

Lemma expected_value names p l st c k : TransThms.acceptable names l -> (forall t, In t l -> well_formed t /\ strict t) -> In st (expected p l) -> In c names -> k <= p ->
  exists x, value (fst st) (snd st - Z.of_nat k) c = Some x.
Proof.
  intros A Wf H Hc Hk. apply in_flat_map in H as (t & Ht & H). apply in_map_iff in H as (time & <- & H). cbn [fst snd].
  apply filter_In in H as [_ H]. rewrite forallb_forall in H. specialize (H k). rewrite in_seq in H. apply existsb_exists in H as (z & Hz & Ez); [|lia].
  apply Z.eqb_eq in Ez. rewrite Ez. apply in_map_iff in Hz as (r & Er & Hr). destruct (Wf t Ht) as [W S]. destruct A as (_ & _ & A). destruct (A t Ht) as (_ & _ & _ & I).
  pose proof (value_row t names r W S I Hr) as V. apply In_nth_error in Hc as (i & Hi). apply (f_equal (fun l => nth_error l i)) in V. rewrite !nth_error_map, Hi in V. cbn [option_map] in V.
  rewrite Er in V. destruct (nth_error (pick _ _ _) i) as [x|]; [|discriminate]. cbn [option_map] in V. exists x. congruence.
Qed.

Lemma learned_acceptable fuel opt eh l p par t g : from_pandas_dynamic fuel opt eh l p par t = Ok g -> TransThms.acceptable (variables l) l.
Proof.
  unfold from_pandas_dynamic, learn_pandas_dynamic. intros H. apply bind_ok in H as (r & H & _). apply bind_ok in H as (tr & Et & H). apply bind_ok in H as (o & Eo & _).
  destruct (fit_columns _ _ _ _ Et) as (f & rest & -> & Dc & _). unfold ddt_transform in Eo. rewrite Dc in Eo. apply bind_ok in Eo as ([] & Eo & _).
  apply check_input_ok in Eo. exact Eo.
Qed.

Lemma acceptable_fit l p b : TransThms.acceptable (variables l) l -> ddt_fit (ddt_init p) l b = Ok (mkDdt p (Some (variables l)) b).
Proof.
  intros A. pose proof A as (Ne & _). destruct l as [|f l]; [congruence|]. clear Ne. apply check_input_ok in A. unfold ddt_fit. cbn [ddt_init d_columns d_p].
  assert (E : check_input None (f :: l) = Ok tt).
  { unfold check_input in *. apply bind_ok in A as (u & A & _). assert (H : forall t, In t (f :: l) -> check_one None f t = Ok tt).
    { intros t Ht. pose proof (proj1 (mapM_tt _ _) (ex_intro _ u A) t Ht) as C. unfold check_one in *. destruct (existsb _ _); [discriminate|].
      destruct (negb (col_list_eqb _ _)); [discriminate|]. destruct (negb (increasing _)); [discriminate|]. destruct (negb _); [discriminate|]. reflexivity. }
    apply mapM_tt in H as (u' & ->). reflexivity. }
  rewrite E. reflexivity.
Qed.

Theorem lagged_data l p ds : TransThms.acceptable (variables l) l -> NoDup (variables l) -> 1 <= p -> (forall t, In t l -> well_formed t /\ strict t) -> expected p l <> [] ->
  (forall c k, In c (variables l) -> k <= p -> DiscThms.reached_disc (ds (lag_name c k)) /\ forall vals, vals <> [] -> DiscThms.fits (ds (lag_name c k)) vals) ->
  exists tr cols rows d, ddt_fit (ddt_init p) l true = Ok tr /\ ddt_transform tr l = Ok (Frame cols rows) /\
    discretised cols (fun j => ds (nth j cols "")) rows d /\ lagged_intervals (variables l) p l ds d /\ NetBridge.complete d.
Proof.
  intros A ND Hp Wf Ne Fd. set (tr := mkDdt p (Some (variables l)) true).
  destruct (frame_aligned tr (variables l) l eq_refl eq_refl ND Hp A Wf) as (cols & rows & Et & NDc & Ic & F2). cbn [d_p tr] in Ic, F2.
  assert (Nr : rows <> []) by (intros ->; inversion F2; congruence).
  destruct (discretised_ok cols (fun j => ds (nth j cols "")) rows NDc Nr) as ((d & Dd) & Dc).
  { intros j Hj. destruct (proj1 (Ic (nth j cols "")) (nth_In _ _ Hj)) as (c & k & Hc & Hk & Ej). rewrite Ej. destruct (Fd c k Hc Hk) as [R F]. split; auto.
    apply F. intros H. apply map_eq_nil in H. auto. }
  exists tr, cols, rows, d. split; [apply acceptable_fit; auto|]. split; auto. split; auto. split; [|apply Dc; auto].
  destruct Dd as (Ec & El & Ev). split.
  { rewrite El. symmetry. clear - F2. induction F2; cbn; auto. }
  intros c k Hc Hk. assert (Hn : In (lag_name c k) cols) by (apply Ic; eauto). split; [rewrite Ec; auto|].
  apply In_nth_error in Hn as (j & Hj). destruct (Ev j _ Hj) as (out & Eo & Er). rewrite (nth_error_nth _ _ "" Hj) in Eo. eexists. exists out. split; [|split; [exact Eo|exact Er]].
  assert (Sub : forall st, In st (expected p l) -> exists x, value (fst st) (snd st - Z.of_nat k) c = Some x) by (intros st Hs; eapply expected_value; eauto).
  clear - F2 Sub NDc Hj Hc Hk. induction F2 as [|st row es rs H F2 IH]; cbn [map]; constructor.
  - destruct (Sub st (or_introl eq_refl)) as (x & Ex). specialize (H c k Hc Hk). rewrite Ex in H. rewrite (dget_nth 0%Qc cols row j _ x NDc Hj H). exact Ex.
  - apply IH. intros st' Hs. apply Sub. right. exact Hs.
Qed.

Theorem dynamic_end_to_end fuel opt eh l p par t g ds method prior ess : NoDup (variables l) -> 1 <= p -> (forall t, In t l -> well_formed t /\ strict t) -> expected p l <> [] ->
  (forall c, In c (variables l) -> InferModel.is_identifier c = true) ->
  (forall c k, In c (variables l) -> k <= p -> DiscThms.reached_disc (ds (lag_name c k)) /\ forall vals, vals <> [] -> DiscThms.fits (ds (lag_name c k)) vals) ->
  sound_way method prior ess -> respects_bounds opt -> from_pandas_dynamic fuel opt eh l p par t = Ok g ->
  exists gd tr cols rows d, threshold_till_dag g = (gd, Ok tt) /\ ddt_fit (ddt_init p) l true = Ok tr /\ ddt_transform tr l = Ok (Frame cols rows) /\
    discretised cols (fun j => ds (nth j cols "")) rows d /\ lagged_intervals (variables l) p l ds d /\
    match get_largest_subgraph gd with None => edges gd = [] | Some s => edges s <> [] /\ answers_from s d method prior ess end.
Proof.
  intros ND Hp Wf Ne Id Fd Sw RB E. pose proof (learned_acceptable _ _ _ _ _ _ _ _ E) as A.
  destruct (dynamic_workflow _ _ _ _ _ _ _ _ RB ND Id E) as (gd & Ed & H). destruct (lagged_data l p ds A ND Hp Wf Ne Fd) as (tr & cols & rows & d & E1 & E2 & E3 & E4 & E5).
  exists gd, tr, cols, rows, d. repeat (split; auto). destruct (get_largest_subgraph gd) as [s|]; auto. destruct H as (Ns & _ & An). split; auto. apply An; auto.
  intros c k Hc Hk. apply (proj2 E4); auto.
Qed.
