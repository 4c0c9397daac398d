(** * PropsUnfit: property C109 (nothing answers before it was fitted). *)
From Coq Require Import List Bool Arith ZArith Lia String Ascii QArith Qcanon.
From Verif Require Import Base QcX Digraph SmModel SmThms NetModel NetProofs NetFit NetThms NetMoreModel NetBridge EvalModel DiscModel DiscThms SklModel PropsNet PropsDisc PropsSkl.
From Verif Require InferSpec BbnModel InferModel InferProofs InferEngine InferOps InferCheck InferWit.
Import ListNotations.
Local Open Scope string_scope.
Local Open Scope list_scope.

(** ** BayesianNetwork and InferenceEngine *)

(** A new network: no states, no CPDs, no predictions, no fit of CPDs, no engine. *)
Theorem C109_new_network : forall g b, bn_init g = Ok b ->
  node_states b = Err AttributeError /\ cpds b = Ok [] /\
  (forall d method prior ess, fit_cpds b d method prior ess = (b, Err AttributeError)) /\
  (forall pg d v, In v (bn_nodes b) -> (incl (get_parents b v) (d_cols d) -> predict pg b d v = Err KeyError) /\
     (~ incl (get_parents b v) (d_cols d) -> predict pg b d v = Err TypeError)) /\
  (forall order pg d v, In v (bn_nodes b) -> (incl (get_parents b v) (d_cols d) -> predict_probability order pg b d v = Err KeyError) /\
     (~ incl (get_parents b v) (d_cols d) -> predict_probability order pg b d v = Err TypeError)) /\
  (forall order pg d v, In v (bn_nodes b) -> exists x, roc_pairs order pg b d v = Err x) /\
  (forall pg d v, In v (bn_nodes b) -> exists x, report_args pg b d v = Err x) /\
  InferModel.engine_new (as_input b []) = Err ValueError.
Proof.
  intros g b E.
  assert (S : b_states b = None /\ b_cpds b = []).
  { unfold bn_init in E. destruct (_ <? _)%nat; [discriminate|]. destruct (negb _); [discriminate|]. destruct (foldM _ _ _); [|discriminate]. injection E as <-. auto. }
  destruct S as [S T].
  assert (C : cpds b = Ok []) by (unfold cpds; rewrite S, T; reflexivity).
  assert (HP : forall d v, In v (bn_nodes b) -> (incl (get_parents b v) (d_cols d) -> has_parents b d v = Ok true) /\ (~ incl (get_parents b v) (d_cols d) -> has_parents b d v = Ok false)).
  { intros d v Hv. unfold has_parents. replace (smem v (b_nodes b)) with true by (symmetry; apply (memb_In _ String.eqb_spec); exact Hv). split; intros I; f_equal.
    - apply forallb_forall. intros p Hp. apply (memb_In _ String.eqb_spec). auto.
    - destruct (forallb _ _) eqn:F; [|reflexivity]. exfalso. apply I. intros p Hp. rewrite forallb_forall in F. apply (memb_In _ String.eqb_spec). exact (F p Hp). }
  assert (P : forall pg d v, In v (bn_nodes b) -> (incl (get_parents b v) (d_cols d) -> predict pg b d v = Err KeyError) /\ (~ incl (get_parents b v) (d_cols d) -> predict pg b d v = Err TypeError)).
  { intros pg d v Hv. destruct (HP d v Hv) as [H1 H2]. unfold predict. split; intros I.
    - rewrite (H1 I). cbn [bind]. unfold predict_complete, frame_of. rewrite C. reflexivity.
    - rewrite (H2 I). cbn [bind]. unfold predict_incomplete, evidence. rewrite S. reflexivity. }
  assert (PP : forall order pg d v, In v (bn_nodes b) -> (incl (get_parents b v) (d_cols d) -> predict_probability order pg b d v = Err KeyError) /\ (~ incl (get_parents b v) (d_cols d) -> predict_probability order pg b d v = Err TypeError)).
  { intros order pg d v Hv. destruct (HP d v Hv) as [H1 H2]. unfold predict_probability. split; intros I.
    - rewrite (H1 I). cbn [bind]. unfold predict_prob_complete, frame_of. rewrite C. reflexivity.
    - rewrite (H2 I). cbn [bind]. unfold predict_prob_incomplete, evidence. rewrite S. reflexivity. }
  assert (DI : forall d v, incl (get_parents b v) (d_cols d) \/ ~ incl (get_parents b v) (d_cols d)).
  { intros d v. destruct (forallb (fun p => smem p (d_cols d)) (get_parents b v)) eqn:F; [left|right].
    - intros p Hp. rewrite forallb_forall in F. apply (memb_In _ String.eqb_spec). exact (F p Hp).
    - intros I. rewrite (proj2 (forallb_forall _ _)) in F; [discriminate|]. intros p Hp. apply (memb_In _ String.eqb_spec). auto. }
  split; [unfold node_states; rewrite S; auto|]. split; auto. split; [intros; unfold fit_cpds; rewrite S; auto|]. split; auto. split; auto. split; [|split].
  - intros order pg d v Hv. unfold roc_pairs. destruct (ground_truth order b d v) as [gt|x]; cbn [bind]; [|eauto]. destruct (PP order pg d v Hv) as [H1 H2]. destruct (DI d v) as [I|I]; [rewrite (H1 I)|rewrite (H2 I)]; cbn [bind]; eauto.
  - intros pg d v Hv. unfold report_args. destruct (P pg d v Hv) as [H1 H2]. destruct (DI d v) as [I|I]; [rewrite (H1 I)|rewrite (H2 I)]; cbn [bind]; eauto.
  - unfold InferModel.engine_new. cbn [as_input InferModel.bn_cpds map]. destruct (forallb _ _); auto.
Qed.
Print Assumptions C109_new_network.

(** States alone are not enough: while [cpds] is empty there is no engine, and no prediction from the parents. *)
Theorem C109_no_cpds : forall b, cpds b = Ok [] ->
  InferModel.engine_new (as_input b []) = Err ValueError /\
  (forall pg d v, In v (bn_nodes b) -> incl (get_parents b v) (d_cols d) -> predict pg b d v = Err KeyError) /\
  (forall order pg d v, In v (bn_nodes b) -> incl (get_parents b v) (d_cols d) -> predict_probability order pg b d v = Err KeyError).
Proof.
  intros b C.
  assert (H : forall d v, In v (bn_nodes b) -> incl (get_parents b v) (d_cols d) -> has_parents b d v = Ok true).
  { intros d v Hv I. unfold has_parents. replace (smem v (b_nodes b)) with true by (symmetry; apply (memb_In _ String.eqb_spec); exact Hv). f_equal.
    apply forallb_forall. intros p Hp. apply (memb_In _ String.eqb_spec). auto. }
  split; [unfold InferModel.engine_new; cbn [as_input InferModel.bn_cpds map]; destruct (forallb _ _); auto|]. split.
  - intros pg d v Hv I. unfold predict. rewrite (H d v Hv I). cbn [bind]. unfold predict_complete, frame_of. rewrite C. reflexivity.
  - intros order pg d v Hv I. unfold predict_probability. rewrite (H d v Hv I). cbn [bind]. unfold predict_prob_complete, frame_of. rewrite C. reflexivity.
Qed.
Print Assumptions C109_no_cpds.

(** Names: letters, digits and underscores *)
Definition letters : string := "_ABCDEFGHIJKLMNOPQRSTUVWXYZabcdefghijklmnopqrstuvwxyz".
Definition digits : string := "0123456789".
Definition letter (c : ascii) : Prop := In c (list_ascii_of_string letters).
Definition word (c : ascii) : Prop := letter c \/ In c (list_ascii_of_string digits).
Definition line_end : ascii := "010"%char.

Lemma letter_is c : InferModel.is_letter c = true <-> letter c.
Proof.
  unfold letter. split.
  - intros H. assert (E : existsb (Ascii.eqb c) (list_ascii_of_string letters) = true) by (destruct c as [[] [] [] [] [] [] [] []]; try discriminate; reflexivity).
    apply existsb_exists in E as (x & I & E). apply Ascii.eqb_eq in E. subst. exact I.
  - intros I. assert (F : forallb InferModel.is_letter (list_ascii_of_string letters) = true) by reflexivity. rewrite forallb_forall in F. auto.
Qed.

Lemma digit_is c : InferModel.is_digit c = true <-> In c (list_ascii_of_string digits).
Proof.
  split.
  - intros H. assert (E : existsb (Ascii.eqb c) (list_ascii_of_string digits) = true) by (destruct c as [[] [] [] [] [] [] [] []]; try discriminate; reflexivity).
    apply existsb_exists in E as (x & I & E). apply Ascii.eqb_eq in E. subst. exact I.
  - intros I. assert (F : forallb InferModel.is_digit (list_ascii_of_string digits) = true) by reflexivity. rewrite forallb_forall in F. auto.
Qed.

Lemma word_is c : InferModel.is_digit c || InferModel.is_letter c = true <-> word c.
Proof. rewrite orb_true_iff, letter_is, digit_is. unfold word. tauto. Qed.

Lemma tail_ends s1 c s2 : ~ word c -> InferModel.word_tail (s1 ++ String c s2) = true -> c = line_end /\ s2 = "".
Proof.
  intros N. assert (Nb : InferModel.is_digit c || InferModel.is_letter c = false) by (destruct (_ || _) eqn:E; auto; apply word_is in E; contradiction).
  induction s1 as [|x s1 IH].
  - cbn [append InferModel.word_tail]. rewrite Nb. destruct s2; [|discriminate]. intros E. apply Ascii.eqb_eq in E. subst. auto.
  - cbn [append InferModel.word_tail]. destruct (InferModel.is_digit x || InferModel.is_letter x); [exact IH|]. destruct (s1 ++ String c s2)%string eqn:E; [|discriminate]. destruct s1; discriminate.
Qed.

(** A name that is empty or contains another character is refused whatever was fitted; Python's [$] lets a line end
    pass at the end of a name. *)
Theorem C109_bad_name : forall bn v, In v (InferModel.bn_nodes bn) ->
  v = "" \/ (exists s1 c s2, v = (s1 ++ String c s2)%string /\ ~ word c /\ ~ (c = line_end /\ s2 = "" /\ s1 <> "")) -> InferModel.engine_new bn = Err ValueError.
Proof.
  intros bn v Hv H. assert (M : InferModel.name_matches v = false).
  { destruct H as [->|(s1 & c & s2 & -> & N & L)]; [reflexivity|]. destruct (InferModel.name_matches _) eqn:M; auto. exfalso. destruct s1 as [|x s1].
    - cbn [append InferModel.name_matches] in M. apply andb_true_iff in M as [M _]. apply word_is in M. auto.
    - cbn [append InferModel.name_matches] in M. apply andb_true_iff in M as [_ M]. apply tail_ends in M as [-> ->]; auto. apply L. split; [reflexivity|]. split; [reflexivity|]. discriminate. }
  unfold InferModel.engine_new. destruct (forallb InferModel.name_matches (InferModel.bn_nodes bn)) eqn:E; auto.
  rewrite forallb_forall in E. rewrite (E v Hv) in M. discriminate.
Qed.
Print Assumptions C109_bad_name.

(** An identifier of Python: a letter or an underscore, followed by letters, digits and underscores. *)
Definition identifier (v : string) : Prop := exists c s, v = String c s /\ letter c /\ forall x, In x (list_ascii_of_string s) -> word x.

Lemma identifier_is v : InferModel.is_identifier v = true <-> identifier v.
Proof.
  assert (W : forall s, InferModel.word_chars s = true <-> forall x, In x (list_ascii_of_string s) -> word x).
  { induction s as [|c s IH]; cbn [InferModel.word_chars list_ascii_of_string]; [split; [intros _ x []|reflexivity]|]. rewrite andb_true_iff, word_is, IH. split.
    - intros [A B] x [<-|I]; auto.
    - intros H. split; [apply H; left; reflexivity|]. intros x I. apply H. right. exact I. }
  split.
  - destruct v as [|c s]; [discriminate|]. cbn [InferModel.is_identifier]. rewrite andb_true_iff, letter_is, W. intros [A B]. exists c, s. auto.
  - intros (c & s & -> & A & B). cbn [InferModel.is_identifier]. rewrite andb_true_iff, letter_is, W. auto.
Qed.

(** A fitted network has an engine only if its names are identifiers: a name that begins with a digit is refused as
    well.  The other direction: identifiers suffice, except for the name self, which no query survives. *)
Theorem C109_identifiers : forall bn, InferOps.frames_ok bn -> InferSpec.shape_ok (InferOps.net_of bn) ->
  (forall v, In v (InferModel.bn_nodes bn) -> ~ identifier v -> InferModel.engine_new bn = Err ValueError) /\
  ((forall v, In v (InferModel.bn_nodes bn) -> identifier v /\ v <> "self") -> exists e, InferModel.engine_new bn = Ok e).
Proof.
  intros bn FO SO. split.
  - intros v Hv N. apply (InferOps.fo_nodes bn FO) in Hv. rewrite <- InferOps.net_of_vars in Hv. unfold InferModel.engine_new. destruct (forallb _ _); [|reflexivity].
    destruct (InferModel.bn_cpds bn) as [|vf fs] eqn:E; [reflexivity|]. rewrite <- E. unfold InferModel.generate_bbn. cbn [InferModel.e_cpds InferModel.e_doms].
    rewrite (InferProofs.create_node_functions_ok (InferOps.net_of bn) SO _ (InferOps.new_rep bn FO SO)). unfold InferModel.build_engine_bbn.
    destruct (forallb (fun vf => forallb InferModel.is_identifier (BbnModel.fargs (snd vf))) _) eqn:F; [exfalso|reflexivity].
    unfold InferSpec.vars in Hv. apply in_map_iff in Hv as ([u c] & Eu & Hv). cbn in Eu. subst u.
    rewrite forallb_forall in F. specialize (F (v, InferProofs.fac (InferModel.create_cpds_dict (InferModel.bn_cpds bn)) v c)). cbn [snd] in F.
    assert (F' := F ltac:(apply InferProofs.net_factors_In; eauto)). rewrite forallb_forall in F'. apply N, identifier_is, F'. left. reflexivity.
  - intros H. destruct (InferOps.engine_new_ok bn FO SO) as (e & Ee & _); [|eauto]. split.
    + intros v Hv. apply identifier_is. apply H. apply (InferOps.fo_nodes bn FO). rewrite <- InferOps.net_of_vars. exact Hv.
    + intros Hv. apply (H "self"); [|reflexivity]. apply (InferOps.fo_nodes bn FO). rewrite <- InferOps.net_of_vars. exact Hv.
Qed.
Print Assumptions C109_identifiers.

Example C109_network_met : bn_init g1 = Ok b0 /\ In "b" (bn_nodes b0) /\ cpds b1 = Ok [] /\ incl (get_parents b1 "b") (d_cols data) /\
  (exists s1 c s2, "my node" = (s1 ++ String c s2)%string /\ ~ word c /\ ~ (c = line_end /\ s2 = "" /\ s1 <> "")) /\ identifier "my_node" /\ ~ identifier "2nd" /\
  InferOps.frames_ok InferWit.digits /\ InferSpec.shape_ok (InferOps.net_of InferWit.digits) /\ InferModel.bn_nodes InferWit.digits = ["1a"].
Proof. split; [exact g1_init|]. split; [cbn; auto|]. split; [vm_compute; reflexivity|]. split; [intros x [<-|[<-|[]]]; cbn; auto|].
  split; [exists "my", " "%char, "node"; split; [reflexivity|]; split; [rewrite <- word_is; discriminate|intros [H _]; discriminate]|].
  split; [apply identifier_is; reflexivity|]. split; [rewrite <- identifier_is; discriminate|]. split; [apply InferCheck.frames_okb_sound; vm_compute; reflexivity|]. split; [apply InferCheck.shape_okb_sound; vm_compute; reflexivity|reflexivity].
Qed.

(** ** Discretiser: without given split points, until a fit succeeds *)
Theorem C109_discretiser : forall a d0 calls data, disc_init a = Ok d0 -> a_numeric a = None ->
  Forall (fun x => exists e, disc_fit d0 x = Err e) calls -> disc_transform (fold_left try_fit calls d0) data = Err ValueError.
Proof.
  intros a d0 calls data E An F. assert (N : numeric_split_points d0 = None).
  { unfold disc_init in E. repeat match type of E with (if ?c then _ else _) = _ => destruct c; [discriminate|] end. injection E as <-. exact An. }
  assert (K : fold_left try_fit calls d0 = d0).
  { clear E N. induction F as [|x l (e & Fx) _ IH]; auto. cbn [fold_left]. unfold try_fit at 2. rewrite Fx. auto. }
  rewrite K. unfold disc_transform. rewrite N. auto.
Qed.
Print Assumptions C109_discretiser.
Example C109_discretiser_met : disc_init (quant_args 4) = Ok (quant 4) /\ a_numeric (quant_args 4) = None /\ disc_fit (quant 4) [] = Err IndexError /\
  exists d, disc_fit (quant 4) (zs [1; 2; 3]%Z) = Ok d.
Proof. split; [vm_compute; reflexivity|]. split; [reflexivity|]. split; [vm_compute; reflexivity|]. eexists. vm_compute. reflexivity. Qed.

(** ** Estimators *)
Theorem C109_coefficients : forall c a1 a2 a3 a4 t e data, dag_init c a1 a2 a3 a4 t = Ok e ->
  reg_coef e data = Err AttributeError /\ reg_intercept e = Err AttributeError /\
  clf_coef e data = Err AttributeError /\ clf_intercept e = Err AttributeError.
Proof.
  intros c a1 a2 a3 a4 t e data E. unfold dag_init in E. destruct a1, a2, a3, a4; try discriminate. cbn [negb] in E.
  destruct t as [a|]; [destruct (smem a _); [|discriminate]|]; injection E as <-; repeat split.
Qed.
Print Assumptions C109_coefficients.
Example C109_coefficients_met : exists e, dag_init (ex_config Classifier None) true true true true (Some "ord") = Ok e.
Proof. eexists. reflexivity. Qed.
