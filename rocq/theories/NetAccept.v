(** * NetAccept: which data predict and predict_probability accept. *)
From Coq Require Import List Bool Arith ZArith Lia String QArith Qcanon Permutation.
From Verif Require Import Base QcX Digraph SmModel SmThms NetModel NetProofs NetFit NetThms.
Import ListNotations.
Local Open Scope string_scope.
Local Open Scope list_scope.

(** Every row has a declared state in every column of [cs]. *)
Definition rows_known (S : list (string * list label)) (cs : list string) (d : df) : Prop :=
  forall r c, In r (d_rows d) -> In c cs -> exists x, at_col r c = Some x /\ In x (declared S c).

Lemma mapM_fails {A B} (F : A -> res B) k l : (forall a, In a l -> (exists y, F a = Ok y) \/ F a = Err k) ->
  (exists ys, mapM F l = Ok ys /\ forall a, In a l -> exists y, F a = Ok y) \/ (mapM F l = Err k /\ exists a, In a l /\ F a = Err k).
Proof.
  induction l as [|a l IH]; intros H; cbn [mapM]; [left; exists []; split; [reflexivity|intros a []]|].
  destruct (H a (or_introl eq_refl)) as [(y & E)|E]; rewrite E; cbn [bind].
  - destruct IH as [(ys & -> & K)|(-> & b & Hb & Eb)]; [intros b Hb; apply H; right; exact Hb| |]; cbn [bind].
    + left. eexists. split; [reflexivity|]. intros b [<-|Hb]; eauto.
    + right. split; [reflexivity|]. exists b. split; [right; exact Hb|exact Eb].
  - right. split; [reflexivity|]. exists a. split; [left; reflexivity|exact E].
Qed.

Lemma start_row_val r p : dget String.eqb (start_row r) p = match dget String.eqb r p with Some x => Some (CVal x) | None => None end.
Proof. unfold start_row. rewrite (dget_map_snd (fun x => CVal x)). reflexivity. Qed.

Lemma column_cases idx ps cols G r : (exists y, cpd_column (mkFrame idx ps cols G) ps (start_row r) = Ok y) \/ cpd_column (mkFrame idx ps cols G) ps (start_row r) = Err KeyError.
Proof.
  unfold cpd_column. match goal with |- context [mapM ?F ps] => destruct (mapM_fails F KeyError ps) as [(k & -> & _)|(-> & _)] end; cbn [bind]; [| |auto].
  - intros p _. destruct (dget String.eqb (start_row r) p) as [c|]; [|auto]. destruct (cell_label c); eauto.
  - destruct (index_of _ _ _); eauto.
Qed.

Lemma column_known S idx ps G r y : cpd_column (mkFrame idx ps (product (map (declared S) ps)) G) ps (start_row r) = Ok y ->
  forall p, In p ps -> exists x, at_col r p = Some x /\ In x (declared S p).
Proof.
  unfold cpd_column. intros H. apply bind_ok in H as (u & E & H). cbn [f_columns] in H.
  destruct (index_of (list_eqb label_eqb) u (product (map (declared S) ps))) as [j|] eqn:J; [|discriminate].
  assert (Hu : In u (product (map (declared S) ps))).
  { destruct (in_dec (list_eq_dec (fun a b => Bool.reflect_dec _ _ (label_eqb_spec a b))) u (product (map (declared S) ps))) as [I|N]; auto. rewrite (index_of_None _ list_eqb_spec _ _ N) in J. discriminate. }
  clear H J. rewrite product_In in Hu. revert u E Hu. induction ps as [|p ps IH]; intros u E Hu q Hq; [destruct Hq|].
  cbn [mapM] in E. apply bind_ok in E as (x & Ex & E). apply bind_ok in E as (xs & Exs & E). injection E as <-. cbn [map] in Hu. inversion Hu as [|? ? ? ? H1 H2]; subst.
  destruct Hq as [<-|Hq]; [|apply (IH xs); auto]. rewrite start_row_val in Ex. unfold at_col. destruct (dget String.eqb r p) as [z|]; [|discriminate]. cbn [cell_label] in Ex. destruct z as [l|]; [|discriminate].
  injection Ex as ->. eauto.
Qed.

Lemma known_values S ps r : (forall p, In p ps -> exists x, at_col r p = Some x /\ In x (declared S p)) -> exists u, parent_values r ps u /\ In u (product (map (declared S) ps)).
Proof.
  intros H. assert (X : exists u, parent_values r ps u /\ Forall2 (fun l x => In x l) (map (declared S) ps) u).
  { induction ps as [|p ps IH]; [exists []; split; constructor|]. destruct IH as (u & P & Q); [intros q Hq; apply H; right; exact Hq|].
    destruct (H p (or_introl eq_refl)) as (x & Ex & Hx). exists (x :: u). split; constructor; auto. }
  destruct X as (u & P & Q). exists u. split; [exact P|]. apply product_In. exact Q.
Qed.

Section Complete.
  Variables (b : bn) (S : list (string * list label)) (fs : list (string * frame)) (d : df) (v : string).
  Hypothesis F : fitted b S fs.
  Hypothesis Hv : In v (b_nodes b).

  Lemma with_parents : incl (get_parents b v) (d_cols d) -> has_parents b d v = Ok true.
  Proof.
    intros I. unfold has_parents. replace (smem v (b_nodes b)) with true by (symmetry; apply (memb_In _ String.eqb_spec); exact Hv). f_equal.
    apply forallb_forall. intros p Hp. apply (memb_In _ String.eqb_spec). auto.
  Qed.

  Lemma without_parents : ~ incl (get_parents b v) (d_cols d) -> has_parents b d v = Ok false.
  Proof.
    intros I. unfold has_parents. replace (smem v (b_nodes b)) with true by (symmetry; apply (memb_In _ String.eqb_spec); exact Hv). f_equal.
    destruct (forallb _ _) eqn:E; [|reflexivity]. exfalso. apply I. intros p Hp. rewrite forallb_forall in E. apply (memb_In _ String.eqb_spec). exact (E p Hp).
  Qed.

  Lemma the_frame : exists f, In (v, f) fs /\ frame_of b v = Ok f /\ declared S v <> [] /\ exists G, f = mkFrame (declared S v) (ssort (get_parents b v)) (product (map (declared S) (ssort (get_parents b v)))) G /\ G <> [].
  Proof.
    destruct (fitted_inv b S fs F) as (NO & NS & DS & P & K). destruct (fitted_frame_for b S fs v F Hv) as (f & Df & Hf). exists f. split; [exact Hf|].
    destruct F as (b0 & d0 & m & pr & es & _ & _ & _ & _ & _ & _ & Ec). split; [unfold frame_of; rewrite Ec; cbn [bind]; rewrite Df; reflexivity|].
    assert (NE : declared S v <> []) by (apply DS; exact Hv). split; [exact NE|]. destruct (K v f Hf) as (G & -> & _). eexists. split; [reflexivity|].
    destruct (declared S v); [contradiction|discriminate].
  Qed.

  Lemma known_sorted : rows_known S (get_parents b v) d <-> rows_known S (ssort (get_parents b v)) d.
  Proof.
    split; intros H r c Hr Hc; apply H; auto; [apply (Permutation_in _ (ssort_Perm _))|apply (Permutation_in _ (Permutation_sym (ssort_Perm _)))]; exact Hc.
  Qed.

  Theorem parents_accept pg : incl (get_parents b v) (d_cols d) ->
    (rows_known S (get_parents b v) d -> exists out, predict pg b d v = Ok out) /\ (~ rows_known S (get_parents b v) d -> predict pg b d v = Err KeyError).
  Proof.
    intros I. destruct the_frame as (f & Hf & Ef & NE & G & Eg & NG). rewrite known_sorted. split; intros K.
    - destruct (best_state b S fs d v f pg F Hf) as (out & E & _); [subst f; cbn; intros p Hp; apply I, (Permutation_in _ (ssort_Perm _)); exact Hp| |eauto].
      intros r Hr. subst f. cbn [f_names f_columns]. apply known_values. intros p Hp. apply K; auto.
    - unfold predict. rewrite (with_parents I). cbn [bind]. unfold predict_complete. rewrite Ef. cbn [bind]. subst f.
      match goal with |- mapM ?H _ = _ => destruct (mapM_fails H KeyError (d_rows d)) as [(ys & _ & Ok)|(E & _)] end; [| |exact E].
      + intros r Hr. destruct (column_cases (declared S v) (ssort (get_parents b v)) (product (map (declared S) (ssort (get_parents b v)))) G r) as [(y & E)|E]; rewrite E; cbn [bind]; [|auto].
        left. cbn [f_index]. destruct (combine (declared S v) y) as [|x l] eqn:C; [|eauto]. exfalso.
        unfold cpd_column in E. apply bind_ok in E as (u & _ & E). cbn [f_rows f_columns] in E. destruct (index_of _ _ _); [|discriminate]. injection E as <-.
        destruct (declared S v) as [|s l]; [contradiction|]. destruct G as [|g G']; [contradiction|discriminate].
      + exfalso. apply K. intros r p Hr Hp. destruct (Ok r Hr) as (y & E). apply bind_ok in E as (col & E & _). exact (column_known S _ _ _ r col E p Hp).
  Qed.

  Theorem parents_accept_probability order pg : incl (get_parents b v) (d_cols d) -> Permutation order (declared S v) ->
    ((forall s, In s (declared S v) -> ~ In (col_name v s) (get_parents b v)) -> rows_known S (get_parents b v) d -> exists out, predict_probability order pg b d v = Ok out) /\
    (~ rows_known S (get_parents b v) d -> predict_probability order pg b d v = Err KeyError).
  Proof.
    intros I PO. destruct the_frame as (f & Hf & Ef & NE & G & Eg & NG). rewrite known_sorted. split.
    - intros NC K. destruct (predictions b S fs d v f order pg F Hf) as (out & E & _); [subst f; cbn; intros p Hp; apply I, (Permutation_in _ (ssort_Perm _)); exact Hp|exact PO| | |eauto].
      + intros s Hs H. apply (NC s Hs). subst f. cbn [f_names] in H. apply (Permutation_in _ (ssort_Perm _)). exact H.
      + intros r Hr. subst f. cbn [f_names f_columns]. apply known_values. intros p Hp. apply K; auto.
    - intros K. unfold predict_probability. rewrite (with_parents I). cbn [bind]. unfold predict_prob_complete. rewrite Ef. cbn [bind]. subst f.
      destruct order as [|s order]; [apply Permutation_nil in PO; contradiction|]. cbn [foldM].
      assert (E : write_state (mkFrame (declared S v) (ssort (get_parents b v)) (product (map (declared S) (ssort (get_parents b v)))) G) (ssort (get_parents b v)) v (map start_row (d_rows d)) s = Err KeyError); [|rewrite E; reflexivity].
      unfold write_state. match goal with |- mapM ?H _ = _ => destruct (mapM_fails H KeyError (map start_row (d_rows d))) as [(ys & _ & Ok)|(E & _)] end; [| |exact E].
      + intros r0 Hr. apply in_map_iff in Hr as (r & <- & Hr). unfold prob_of.
        destruct (column_cases (declared S v) (ssort (get_parents b v)) (product (map (declared S) (ssort (get_parents b v)))) G r) as [(y & E)|E]; rewrite E; cbn [bind]; [|auto].
        cbn [f_index]. destruct (index_of label_eqb s (declared S v)); cbn [bind]; eauto.
      + exfalso. apply K. intros r p Hr Hp. destruct (Ok (start_row r) (in_map start_row _ _ Hr)) as (y & E). unfold prob_of in E. apply bind_ok in E as (q & E & _). apply bind_ok in E as (col & E & _).
        exact (column_known S _ _ _ r col E p Hp).
  Qed.

  Theorem others_accept pg order pgp : ~ incl (get_parents b v) (d_cols d) ->
    (~ (incl (d_cols d) (map fst S) /\ In v (d_cols d)) -> predict pg b d v = Err KeyError /\ predict_probability order pgp b d v = Err KeyError) /\
    (incl (d_cols d) (map fst S) -> In v (d_cols d) -> ~ incl (d_cols d) (b_nodes b) -> predict pg b d v = Err ValueError /\ predict_probability order pgp b d v = Err ValueError) /\
    (In v (d_cols d) -> incl (d_cols d) (b_nodes b) -> rows_known S (d_cols d) d ->
       (exists out, predict pg b d v = Ok out) /\ exists out, predict_probability order pgp b d v = Ok out).
  Proof.
    intros N. destruct (fitted_inv b S fs F) as (NO & NS & _). destruct (node_states_declared b S NS) as (st & ES & D & Dk). destruct (no_states _ NO st ES) as [SO KS].
    assert (Keys : map fst S = dkeys st).
    { unfold node_states in NS. rewrite ES in NS. injection NS as <-. rewrite map_map. reflexivity. }
    assert (U : forall A (x : exn) (k : list (list (string * nat)) -> A), evidence b d v = Err x -> predict pg b d v = Err x /\ predict_probability order pgp b d v = Err x).
    { intros _ x _ E. unfold predict, predict_probability, predict_incomplete, predict_prob_incomplete. rewrite (without_parents N). cbn [bind]. rewrite E. split; reflexivity. }
    split; [|split].
    - intros H. apply (U unit KeyError (fun _ => tt)). unfold evidence. rewrite ES. destruct (forallb (fun c => smem c (dkeys st)) (d_cols d)) eqn:E1; cbn [negb]; [|reflexivity].
      destruct (smem v (d_cols d)) eqn:E2; cbn [negb]; [|reflexivity]. exfalso. apply H. split.
      + intros c Hc. rewrite Keys. rewrite forallb_forall in E1. apply (memb_In _ String.eqb_spec). exact (E1 c Hc).
      + apply (memb_In _ String.eqb_spec). exact E2.
    - intros I Hd M. apply (U unit ValueError (fun _ => tt)). unfold evidence. rewrite ES.
      replace (forallb (fun c => smem c (dkeys st)) (d_cols d)) with true by (symmetry; apply forallb_forall; intros c Hc; apply (memb_In _ String.eqb_spec); rewrite <- Keys; auto).
      replace (smem v (d_cols d)) with true by (symmetry; apply (memb_In _ String.eqb_spec); auto). cbn [negb].
      destruct (forallb (fun c => smem c (b_nodes b)) (filter (fun c => negb (String.eqb c v)) (d_cols d))) eqn:E; [|reflexivity]. exfalso. apply M. intros c Hc.
      destruct (String.eqb_spec c v) as [->|Nc]; [exact Hv|]. rewrite forallb_forall in E. apply (memb_In _ String.eqb_spec). apply E. apply filter_In. split; [exact Hc|].
      destruct (String.eqb_spec c v); [contradiction|reflexivity].
    - intros Hd I K. destruct (evidence_ok b S fs d v F Hd I K) as (es & E & _).
      unfold predict, predict_probability, predict_incomplete, predict_prob_incomplete. rewrite (without_parents N). cbn [bind]. rewrite E, ES. cbn [bind]. split; eauto.
  Qed.
End Complete.

Lemma unknown_node b d v pg order pgp : ~ In v (b_nodes b) -> predict pg b d v = Err NetworkXError /\ predict_probability order pgp b d v = Err NetworkXError.
Proof.
  intros N. unfold predict, predict_probability, has_parents. destruct (smem v (b_nodes b)) eqn:E; [|split; reflexivity]. apply (memb_In _ String.eqb_spec) in E. contradiction.
Qed.
