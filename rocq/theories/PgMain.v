(** * PgMain: predict and predict_probability against the conditional probabilities of the fitted network. *)
From Coq Require Import List Bool Arith ZArith Lia String QArith Qcanon Permutation.
From Verif Require Import Base QcX Digraph BbnModel SumOver SmModel SmProofs SmHist SmThms NetModel NetProofs NetFit NetThms NetBridge PgModel PgThms.
From Verif Require Import InferSpec InferProofs InferMain CausalCore CausalThms.
From Verif Require InferModel InferOps InferEngine CausalApi Kruskal.
Import ListNotations.
Local Open Scope list_scope.

(** Every value of the data is one of the declared states. *)
Definition declared_data (S : list (string * list label)) (d : df) : Prop :=
  forall r c, In r (d_rows d) -> In c (d_cols d) -> exists x, at_col r c = Some x /\ In x (declared S c).

(** What the engine built from the network answers for the observations [obs]. *)
Definition engine_says (bi : InferModel.bnet) (obs : list (string * label)) (v : string) (s : label) (q : Qc) : Prop :=
  exists eng, InferModel.engine_new bi = Ok eng /\
    forall sc, Kruskal.good_sched sc -> exists r, InferModel.engine_query sc eng obs = Ok r /\ InferEngine.answer r v s = Some q.

Section Main.
  Variable b : bn.
  Variable S : list (string * list label).
  Variable fs : list (string * frame).
  Hypothesis F : fitted b S fs.
  Hypothesis Id : forall v, In v (b_nodes b) -> InferModel.is_identifier v = true.
  Hypothesis Self : ~ In "self"%string (b_nodes b).
  Let N := InferOps.net_of (as_input b fs).
  Variable d : df.
  Hypothesis NDc : NoDup (d_cols d).
  Hypothesis Ic : incl (d_cols d) (b_nodes b).
  Hypothesis Rows : declared_data S d.
  Variable v : string.
  Hypothesis Hv : In v (b_nodes b).

  Lemma nodes_ne : b_nodes b <> [].
  Proof. intros E. rewrite E in Hv. destruct Hv. Qed.

  Lemma seen_valid r : In r (d_rows d) -> InferEngine.valid_obs N (seen d v r).
  Proof.
    intros Hr. split; [apply seen_NoDup; auto|]. intros c x H. apply seen_In in H as (Hc & _ & E).
    split; [apply (Permutation_in _ (Permutation_sym (N_vars b S fs F))); auto|].
    unfold N. rewrite (N_states b S fs F nodes_ne Id Self) by auto.
    destruct (Rows r c Hr Hc) as (y & E' & Hy). congruence.
  Qed.

  Lemma seen_nodes r : incl (map fst (seen d v r)) (b_nodes b).
  Proof. intros c H. apply in_map_iff in H as ([c' x] & <- & H). apply seen_In in H. apply Ic. tauto. Qed.

  Lemma engine_agrees r s : In r (d_rows d) -> In s (declared S v) ->
    engine_says (as_input b fs) (seen d v r) v s (cond_prob N (seen d v r) v s).
  Proof.
    intros Hr Hs. pose proof (fitted_good b S fs F nodes_ne Id Self) as G.
    pose proof G as (G1 & G2 & G3 & G4 & G5). destruct (InferOps.engine_new_ok (as_input b fs) G1 G2 G4) as (eng & Ee & EO & _).
    exists eng. split; auto. intros sc GS.
    assert (Ed : InferEngine.edited InferOps.no_do (InferOps.net_of (as_input b fs)) = InferOps.net_of (as_input b fs)) by apply InferOps.edited_none.
    destruct (query_conditional sc eng (InferOps.net_of (as_input b fs)) InferOps.no_do (seen d v r) GS G2 G4 EO G3) as (q & Eq & _ & A & _).
    - rewrite Ed. auto.
    - apply seen_valid; auto.
    - exists q. split; auto. rewrite Ed in A. apply A.
      + apply (Permutation_in _ (Permutation_sym (N_vars b S fs F))); auto.
      + rewrite (N_states b S fs F nodes_ne Id Self); auto.
  Qed.

  Lemma arrows x y : In (x, y) (parent_arrows N) <-> In (x, y) (b_edges b).
  Proof.
    destruct (fitted_inv b S fs F) as (NO & NS & DS & P & K). unfold N. rewrite (N_eq b fs).
    unfold parent_arrows. rewrite in_flat_map. split.
    - intros ([u c] & H & X). apply in_map_iff in H as ([u' f] & [= <- <-] & H). cbn in X. apply in_map_iff in X as (p & [= -> ->] & Hp).
      apply get_parents_In. destruct (K y f H) as (G & -> & _). apply (Permutation_in _ (ssort_Perm _)). auto.
    - intros H. assert (Hy : In y (b_nodes b)) by (apply (no_touch _ NO); exists x; auto).
      destruct (fitted_frame_for b S fs y F Hy) as (f & _ & Hf). eexists. split; [apply in_map_iff; exists (y, f); split; [reflexivity|auto]|].
      cbn. apply in_map_iff. exists x. split; auto. destruct (K y f Hf) as (G & -> & _). cbn.
      apply (Permutation_in _ (Permutation_sym (ssort_Perm _))). apply get_parents_In; auto.
  Qed.

  (** ** Parents missing *)
  Theorem missing_probability axes order : In v (d_cols d) -> ~ incl (get_parents b v) (d_cols d) ->
    (forall e, Permutation (axes e) (missing b e)) ->
    exists out, predict_probability order (pg_probability axes b) b d v =
        Ok (map (fun i => col_name v (LInt (Z.of_nat i))) (seq 0 (List.length (declared S v))), out) /\
      Forall2 (fun r ps => Pr N (observed (seen d v r)) <> 0%Qc ->
        ps = map (fun s => CNum (cond_prob N (seen d v r) v s)) (declared S v)) (d_rows d) out.
  Proof.
    intros Hd Np Ax. destruct (fitted_tables b S fs F) as (st & ES & SO & D & KS & _).
    destruct (evidence_rows b S fs d v F Hd Ic Rows) as (es & Ee & Fe).
    assert (HP : has_parents b d v = Ok false).
    { unfold has_parents. replace (smem v (b_nodes b)) with true by (symmetry; apply (memb_In _ String.eqb_spec); auto). f_equal.
      apply not_true_iff_false. intros X. apply Np. intros p Hp. rewrite forallb_forall in X. apply X in Hp.
      apply (memb_In _ String.eqb_spec) in Hp. auto. }
    unfold predict_probability, predict_prob_incomplete. rewrite HP, Ee, ES. cbn [bind fst snd].
    rewrite (card_declared S st D). eexists. split; [reflexivity|].
    rewrite map_map. clear Ee.
    assert (Q : forall l es, incl l (d_rows d) -> Forall2 (fun r e => encodes S (seen d v r) e) l es ->
      Forall2 (fun r ps => Pr N (observed (seen d v r)) <> 0%Qc -> ps = map (fun s => CNum (cond_prob N (seen d v r) v s)) (declared S v)) l
        (map (fun e => map CNum (pg_probability axes b e v)) es)).
    2:{ apply Q; [intros x Hx; auto|auto]. }
    clear es Fe. intros l es I Fe. induction Fe as [|r e l es Er _ IH]; [constructor|].
    cbn [map]. constructor; [|apply IH; intros x Hx; apply I; right; auto]. intros Nz.
    unfold pg_probability. rewrite ES. rewrite map_map, (card_declared S st D).
    apply (map_seq_nth (LInt 0)). intros i Hi. f_equal.
    assert (Hs : nth_error (declared S v) i = Some (nth i (declared S v) (LInt 0))) by (apply nth_error_nth'; auto).
    pose proof (total_weight b S fs F nodes_ne Id Self st ES (seen d v r) e Er (seen_NoDup d v r NDc) (seen_nodes r) (axes e) (Ax e)) as T.
    pose proof (state_weight b S fs F nodes_ne Id Self st ES (seen d v r) e Er (seen_NoDup d v r NDc) (seen_nodes r) (axes e) (Ax e) v i _ Hv Hs) as W.
    fold N in T, W. rewrite T. unfold cond_prob. destruct (Qc_eq_bool_spec (Pr N (observed (seen d v r))) 0) as [|_]; [congruence|].
    rewrite <- W. unfold Qcdiv. rewrite (Qsum_ext _ (fun w => (/ Pr N (observed (seen d v r)) * weight st (b_cpds b) w)%Qc)) by (intros; ring).
    rewrite Qsum_mul_l. ring.
  Qed.

  (** ** Parents present, no descendant among the columns *)
  Hypothesis Pc : incl (get_parents b v) (d_cols d).
  Hypothesis Nd : forall c, In c (d_cols d) -> c <> v -> ~ path (b_edges b) v c.

  Lemma cell_conditional f r u s : In (v, f) fs -> In r (d_rows d) -> NetThms.parent_values r (f_names f) u -> In s (declared S v) ->
    Pr N (observed (seen d v r)) <> 0%Qc -> cell_of f s u = cond_prob N (seen d v r) v s.
  Proof.
    intros Hf Hr Pv Hs Nz. destruct (fitted_inv b S fs F) as (NO & NS & DS & P & K).
    destruct (N_shape b S fs F nodes_ne Id Self) as [SO CS]. fold N in SO, CS.
    pose (c := mkCpd (f_index f) (f_names f) (InferOps.entry (conv f))).
    assert (Hc : In (v, c) N) by (unfold N; rewrite (N_eq b fs); apply in_map_iff; exists (v, f); auto).
    assert (Ps : f_names f = ssort (get_parents b v) /\ f_index f = declared S v /\ f_columns f = product (map (declared S) (ssort (get_parents b v)))).
    { destruct (K v f Hf) as (G & -> & _). auto. }
    destruct Ps as (Ep & Ei & Ecs).
    assert (PI : forall p, In p (f_names f) -> In p (d_cols d) /\ p <> v).
    { intros p Hp. rewrite Ep in Hp. apply (Permutation_in _ (ssort_Perm _)) in Hp. split; [auto|]. intros ->.
      apply (ok_dag N SO v). apply path_one. apply arrows. apply get_parents_In; auto. }
    assert (PathEq : forall x y, path (parent_arrows N) x y -> path (b_edges b) x y).
    { intros x y Hxy. apply (path_mono (parent_arrows N)); auto. intros [p q] Hpq. apply arrows; auto. }
    rewrite (markov N v c (seen d v r) SO CS Hc); auto.
    - cbn [prob parents c].
      assert (Eu : map (value_in (seen d v r)) (f_names f) = u).
      { clear -Pv PI NDc. induction Pv as [|p x ps u E Pv IH]; cbn [map]; auto. rewrite IH by (intros q Hq; apply PI; right; auto). f_equal.
        destruct (PI p (or_introl eq_refl)) as [Hp Np]. unfold value_in.
        assert (Hin : In (p, x) (seen d v r)) by (apply seen_In; auto).
        destruct (dget String.eqb (seen d v r) p) as [y|] eqn:G.
        - apply (dget_In _ String.eqb_spec) in G. apply seen_In in G as (_ & _ & G). congruence.
        - exfalso. assert (X : In p (dkeys (seen d v r))) by (apply in_map_iff; exists (p, x); auto).
          apply (dget_key_Some _ String.eqb_spec) in X as (y & X). unfold dget in *. congruence. }
      rewrite Eu. destruct (K v f Hf) as (G & -> & _). cbn [f_names] in Pv.
      assert (Hu : In u (product (map (declared S) (ssort (get_parents b v))))).
      { clear Eu. cbn [f_names] in PI. apply product_In. clear -Pv PI Rows Hr. induction Pv as [|p x ps u E Pv IH]; cbn; constructor.
        - destruct (Rows r p Hr) as (y & Ey & Hy); [apply PI; left; auto|]. congruence.
        - apply IH. intros q Hq. apply PI. right; auto. }
      rewrite cell_of_frame by auto. rewrite entry_conv by auto. auto.
    - apply seen_valid; auto.
    - intros p Hp. cbn in Hp. destruct (PI p Hp) as [Hp1 Hp2]. destruct (Rows r p Hr Hp1) as (x & Ex & _).
      apply in_map_iff. exists (p, x). split; auto. apply seen_In. auto.
    - intros x Hx. apply in_map_iff in Hx as ([x' y] & <- & Hx). apply seen_In in Hx as (H1 & H2 & _). cbn [fst]. split; auto.
      intros X. apply (Nd x' H1 H2). auto.
    - cbn. rewrite Ei. auto.
  Qed.

  Lemma parent_rows f : In (v, f) fs -> forall r, In r (d_rows d) -> exists u, NetThms.parent_values r (f_names f) u /\ In u (f_columns f).
  Proof.
    intros Hf r Hr. destruct (fitted_inv b S fs F) as (NO & NS & DS & P & K). destruct (K v f Hf) as (G & -> & _). cbn [f_names f_columns].
    assert (I : incl (ssort (get_parents b v)) (d_cols d)) by (intros p Hp; apply Pc, (Permutation_in _ (ssort_Perm _)); auto).
    clear -I Rows Hr. induction (ssort (get_parents b v)) as [|p ps IH].
    - exists []. split; [constructor|left; auto].
    - destruct IH as (u & Pv & Hu); [intros q Hq; apply I; right; auto|]. destruct (Rows r p Hr (I p (or_introl eq_refl))) as (x & Ex & Hx).
      exists (x :: u). split; [constructor; auto|]. apply product_In. apply product_In in Hu. constructor; auto.
  Qed.

  Lemma names_cols f : In (v, f) fs -> incl (f_names f) (d_cols d).
  Proof.
    intros Hf p Hp. destruct (fitted_inv b S fs F) as (_ & _ & _ & _ & K). destruct (K v f Hf) as (G & -> & _). cbn in Hp.
    apply Pc, (Permutation_in _ (ssort_Perm _)); auto.
  Qed.

  Theorem present_probability order pg : Permutation order (declared S v) ->
    (forall s p, In s (declared S v) -> In p (get_parents b v) -> p <> col_name v s) ->
    exists out, predict_probability order pg b d v = Ok (map (col_name v) order, out) /\
      Forall2 (fun r ps => Pr N (observed (seen d v r)) <> 0%Qc ->
        ps = map (fun s => CNum (cond_prob N (seen d v r) v s)) order) (d_rows d) out.
  Proof.
    intros PO NC. destruct (fitted_frame_for b S fs v F Hv) as (f & _ & Hf).
    destruct (predictions b S fs d v f order pg F Hf (names_cols f Hf) PO) as (out & E & Fo).
    - intros s Hs X. destruct (fitted_inv b S fs F) as (_ & _ & _ & _ & K). destruct (K v f Hf) as (G & -> & _). cbn in X.
      apply (Permutation_in _ (ssort_Perm _)) in X. apply (NC s _ Hs X). auto.
    - apply parent_rows; auto.
    - exists out. split; auto. clear E.
      assert (Q : forall l o, incl l (d_rows d) -> Forall2 (fun r ps => exists u, NetThms.parent_values r (f_names f) u /\ ps = map (fun s => CNum (cell_of f s u)) order /\ Qsum (fun s => cell_of f s u) order = 1%Qc) l o ->
        Forall2 (fun r ps => Pr N (observed (seen d v r)) <> 0%Qc -> ps = map (fun s => CNum (cond_prob N (seen d v r) v s)) order) l o).
      2:{ apply Q; auto. intros x Hx; auto. }
      intros l o I H. induction H as [|r ps l o (u & Pv & Ep & _) _ IH]; constructor.
      + intros Nz. rewrite Ep. apply map_ext_in. intros s Hs. f_equal.
        apply cell_conditional; auto; [apply I; left; auto|apply (Permutation_in _ PO); auto].
      + apply IH. intros x Hx. apply I. right; auto.
  Qed.

  Theorem present_state pg : exists out, predict pg b d v = Ok out /\
    Forall2 (fun r x => Pr N (observed (seen d v r)) <> 0%Qc -> In x (declared S v) /\
      forall s, In s (declared S v) -> (cond_prob N (seen d v r) v s <= cond_prob N (seen d v r) v x)%Qc) (d_rows d) out.
  Proof.
    destruct (fitted_frame_for b S fs v F Hv) as (f & _ & Hf).
    destruct (best_state b S fs d v f pg F Hf (names_cols f Hf) (parent_rows f Hf)) as (out & E & Fo).
    exists out. split; auto. clear E.
    assert (Q : forall l o, incl l (d_rows d) -> Forall2 (fun r x => exists u, NetThms.parent_values r (f_names f) u /\ In x (declared S v) /\
               forall s, In s (declared S v) -> (cell_of f s u <= cell_of f x u)%Qc) l o ->
      Forall2 (fun r x => Pr N (observed (seen d v r)) <> 0%Qc -> In x (declared S v) /\
        forall s, In s (declared S v) -> (cond_prob N (seen d v r) v s <= cond_prob N (seen d v r) v x)%Qc) l o).
    2:{ apply Q; auto. intros x Hx; auto. }
    intros l o I H. induction H as [|r x l o (u & Pv & Hx & Best) _ IH]; constructor.
    - intros Nz. split; auto. intros s Hs. assert (Hr : In r (d_rows d)) by (apply I; left; auto).
      rewrite <- (cell_conditional f r u s), <- (cell_conditional f r u x); auto.
    - apply IH. intros y Hy. apply I. right; auto.
  Qed.
End Main.
