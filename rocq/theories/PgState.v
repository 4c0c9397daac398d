(** * PgState: with missing parents, predict returns a part of a most probable completion of the row. *)
From Coq Require Import List Bool Arith ZArith Lia String QArith Qcanon Permutation.
From Verif Require Import Base QcX Digraph BbnModel SumOver SmModel SmProofs SmHist SmThms NetModel NetProofs NetFit NetThms NetBridge PgModel PgThms PgMain.
From Verif Require Import InferSpec InferProofs InferMain CausalCore CausalThms.
From Verif Require InferModel InferOps InferEngine CausalApi Kruskal.
Import ListNotations.
Local Open Scope list_scope.

Lemma first_best_spec {A} (f : A -> Qc) l : forall x, In (first_best f x l) (x :: l) /\ forall y, In y (x :: l) -> (f y <= f (first_best f x l))%Qc.
Proof.
  induction l as [|z l IH]; intros x; cbn [first_best].
  - split; [left; auto|]. intros y [->|[]]. apply Qcle_refl.
  - destruct (Qclt_le_dec (f x) (f z)) as [H|H].
    + destruct (IH z) as [I M]. split; [right; auto|]. intros y [<-|Hy]; [|apply M; auto].
      apply Qcle_trans with (f z); [apply Qclt_le_weak; auto|apply M; left; auto].
    + destruct (IH x) as [I M]. split; [destruct I as [<-|I]; [left|right; right]; auto|].
      intros y [<-|[<-|Hy]]; [apply M; left; auto| |apply M; right; auto].
      apply Qcle_trans with (f x); auto. apply M. left; auto.
Qed.

(** The world of an assignment. *)
Definition world_of (N : net) (a : assign) : list (string * label) := map (fun u => (u, a u)) (vars N).

Lemma world_of_at N a v : In v (vars N) -> at_ (world_of N a) v = a v.
Proof.
  unfold world_of, at_. intros H. induction (vars N) as [|u l IH]; [destruct H|]. cbn.
  destruct (String.eqb_spec u v) as [->|Nu]; auto. destruct H as [H|H]; [congruence|auto].
Qed.

Lemma world_of_In N a : (forall v c, In (v, c) N -> In (a v) (states c)) -> In (world_of N a) (all_worlds N).
Proof.
  unfold world_of. induction N as [|[v c] N IH]; intros H; cbn; [left; auto|].
  apply in_flat_map. exists (a v). split; [apply (H v c); left; auto|].
  apply (in_map (cons (v, a v))), IH. intros u k Hu. apply (H u k). right; auto.
Qed.

Section State.
  Variable b : bn.
  Variable S : list (string * list label).
  Variable fs : list (string * frame).
  Hypothesis F : fitted b S fs.
  Hypothesis Id : forall v, In v (b_nodes b) -> InferModel.is_identifier v = true.
  Hypothesis Self : ~ In "self"%string (b_nodes b).
  Let N := InferOps.net_of (as_input b fs).
  Hypothesis Ne : b_nodes b <> [].
  Variable st : list (string * list (label * nat)).
  Hypothesis ES : b_states b = Some st.
  Variable obs : list (string * label).
  Variable e : list (string * nat).
  Hypothesis En : encodes S obs e.
  Hypothesis NDo : NoDup (map fst obs).
  Hypothesis Io : incl (map fst obs) (b_nodes b).
  Variable ms : list string.
  Hypothesis Pm : Permutation ms (missing b e).

  Lemma vars_nodes x : In x (vars N) <-> In x (b_nodes b).
  Proof. split; apply Permutation_in; [|symmetry]; apply (N_vars b S fs F). Qed.

  Lemma state_dec y x c : In (x, c) N -> In y (declared S x) -> In y (states c).
  Proof.
    intros Hc Ha. pose proof (in_vars N x c Hc) as Hx. destruct (N_shape b S fs F Ne Id Self) as [SO _].
    rewrite <- (states_of_In N x c (ok_vars N SO) Hc). unfold N. rewrite (N_states b S fs F Ne Id Self); auto. apply vars_nodes; auto.
  Qed.

  Lemma obs_cell c : In c (cells st ms e) -> forall x y, In (x, y) obs -> decode S c x = y.
  Proof.
    intros Hc x y H. apply in_map_iff in Hc as (u & <- & _). destruct (encodes_get S obs e En NDo x y H) as [_ E].
    unfold decode in *. rewrite code_in_app. replace (smem x (dkeys e)) with true; auto.
    symmetry. apply (memb_In _ String.eqb_spec). unfold dkeys. rewrite (encodes_keys S obs e En). apply in_map_iff. exists (x, y). auto.
  Qed.

  Lemma cell_of_world w : In w (all_worlds N) -> observed obs w = true ->
    exists c, In c (cells st ms e) /\ forall x, In x (vars N) -> decode S c x = at_ w x.
  Proof.
    intros Hw Ho. destruct (st_facts b S fs F st ES) as (SO & D & _). destruct (N_shape b S fs F Ne Id Self) as [Sh _].
    assert (St : forall x, In x (vars N) -> In (at_ w x) (declared S x)).
    { intros x Hx. rewrite <- (N_states b S fs F Ne Id Self) by (apply vars_nodes; auto). apply (all_worlds_state N); auto. apply (ok_vars N Sh). }
    assert (X : exists u, In u (combinations st ms) /\ forall x, In x ms -> nth (code_in (combine ms u) x) (declared S x) (LInt 0) = at_ w x).
    { assert (I : forall x, In x ms -> In x (vars N)) by (intros x Hx; apply vars_nodes; apply (ms_In b S obs e En ms Pm) in Hx; tauto).
      pose proof (ms_NoDup b S fs F e ms Pm) as ND. clear Pm. unfold combinations.
      induction ms as [|m l IH]; [exists []; split; [left; auto|intros x []]|].
      inversion ND as [|? ? Nm ND']; subst. destruct IH as (u & Hu & Au); auto; [intros x Hx; apply I; right; auto|].
      destruct (In_nth (declared S m) (at_ w m) (LInt 0) (St m (I m (or_introl eq_refl)))) as (i & Hi & Ei).
      exists (i :: u). split.
      - cbn [map]. apply product_In. constructor; [apply in_seq; rewrite (card_declared S st D); lia|apply product_In; auto].
      - intros x Hx. cbn [combine]. unfold code_in. cbn. destruct (String.eqb_spec x m) as [->|Nx]; [auto|].
        destruct Hx as [->|Hx]; [congruence|]. apply Au; auto. }
    destruct X as (u & Hu & Au). exists (e ++ combine ms u). assert (Hc : In (e ++ combine ms u) (cells st ms e)) by (apply in_map_iff; eauto).
    split; auto. intros x Hx. destruct (in_dec string_dec x (map fst obs)) as [Hk|Hk].
    - apply in_map_iff in Hk as ([x' y] & <- & Hk). cbn [fst]. rewrite (obs_cell _ Hc x' y Hk).
      unfold observed in Ho. rewrite forallb_forall in Ho. specialize (Ho _ Hk). cbn in Ho. destruct (label_eqb_spec (at_ w x') y); congruence.
    - unfold decode. rewrite code_in_app. destruct (smem x (dkeys e)) eqn:Q.
      + exfalso. apply Hk. rewrite <- (encodes_keys S obs e En). apply (memb_In _ String.eqb_spec). exact Q.
      + apply Au. apply (ms_In b S obs e En ms Pm). split; [apply vars_nodes; auto|auto].
  Qed.

  Lemma best_cell : exists c l, cells st ms e = c :: l /\
    let best := first_best (weight st (b_cpds b)) c l in
    In (world_of N (decode S best)) (all_worlds N) /\ observed obs (world_of N (decode S best)) = true /\
    (forall x, In x (b_nodes b) -> nth_error (declared S x) (code_in best x) = Some (at_ (world_of N (decode S best)) x)) /\
    forall w, In w (all_worlds N) -> observed obs w = true -> (joint N w <= joint N (world_of N (decode S best)))%Qc.
  Proof.
    destruct (N_shape b S fs F Ne Id Self) as [Sh _].
    assert (C : closed_in N) by (intros u k I; apply (ok_parents N Sh u k I)).
    assert (Cod : forall c, In c (cells st ms e) -> forall x, In x (b_nodes b) -> (code_in c x < List.length (declared S x))%nat)
      by (apply (cell_codes b S fs F st ES obs e En NDo ms Pm)).
    destruct (cells st ms e) as [|c l] eqn:Ec.
    { exfalso. destruct (fitted_inv b S fs F) as (_ & _ & DS & _).
      assert (Hw : In (world_of N (fun x => match dget String.eqb obs x with Some y => y | None => nth 0 (declared S x) (LInt 0) end)) (all_worlds N)).
      { apply world_of_In. intros x k Hk. assert (Hx : In x (vars N)) by (apply (in_vars N x k Hk)). apply (state_dec _ x k Hk).
        pose proof (proj1 (vars_nodes x) Hx) as Hn. destruct (dget String.eqb obs x) as [y|] eqn:G.
        - apply (dget_In _ String.eqb_spec) in G. destruct (encodes_get S obs e En NDo x y G) as [H1 <-]. apply nth_In; auto.
        - apply nth_In. destruct (DS x Hn) as (H1 & _). destruct (declared S x); [congruence|cbn; lia]. }
      destruct (cell_of_world _ Hw) as (c & Hc & _); [|rewrite Ec in Hc; destruct Hc].
      unfold observed. apply forallb_forall. intros [x y] Hxy. cbn [fst snd].
      rewrite world_of_at by (apply vars_nodes, Io, in_map_iff; exists (x, y); auto).
      destruct (dget String.eqb obs x) as [z|] eqn:G.
      - apply (dget_In _ String.eqb_spec) in G.
        rewrite <- (proj2 (encodes_get S obs e En NDo x z G)), <- (proj2 (encodes_get S obs e En NDo x y Hxy)). destruct (label_eqb_spec (decode S e x) (decode S e x)); congruence.
      - exfalso. assert (X : In x (dkeys obs)) by (apply in_map_iff; exists (x, y); auto).
        apply (dget_key_Some _ String.eqb_spec) in X as (z & X). unfold dget in *. congruence. }
    exists c, l. split; auto. cbn zeta. destruct (first_best_spec (weight st (b_cpds b)) l c) as [I M].
    set (best := first_best (weight st (b_cpds b)) c l) in *. rewrite <- Ec in I, M, Cod.
    assert (At : forall x, In x (vars N) -> at_ (world_of N (decode S best)) x = decode S best x) by (intros; apply world_of_at; auto).
    assert (J : forall k, In k (cells st ms e) -> weight st (b_cpds b) k = jointf N (decode S k)).
    { intros k Hk. apply (weight_joint b S fs F st ES). apply Cod; auto. }
    split; [|split; [|split]].
    - apply world_of_In. intros x k Hk. apply (state_dec _ x k Hk).
      apply nth_In. apply Cod; auto. apply vars_nodes, (in_vars N x k Hk).
    - unfold observed. apply forallb_forall. intros [x y] Hxy. cbn [fst snd].
      rewrite At by (apply vars_nodes, Io, in_map_iff; exists (x, y); auto). rewrite (obs_cell best I x y Hxy). destruct (label_eqb_spec y y); congruence.
    - intros x Hx. rewrite At by (apply vars_nodes; auto). apply nth_error_nth'. apply Cod; auto.
    - intros w Hw Ho. destruct (cell_of_world w Hw Ho) as (k & Hk & Ek).
      change (joint N w) with (jointf N (at_ w)). change (joint N (world_of N (decode S best))) with (jointf N (at_ (world_of N (decode S best)))).
      rewrite (jointf_dep N C (at_ w) (decode S k)) by (intros x Hx; symmetry; auto).
      rewrite (jointf_dep N C (at_ (world_of N (decode S best))) (decode S best)) by auto.
      rewrite <- !J by auto. apply M. auto.
  Qed.
End State.

Theorem missing_state b S fs d v axes : fitted b S fs ->
  (forall v, In v (b_nodes b) -> InferModel.is_identifier v = true) -> ~ In "self"%string (b_nodes b) ->
  NoDup (d_cols d) -> incl (d_cols d) (b_nodes b) -> declared_data S d -> In v (b_nodes b) ->
  In v (d_cols d) -> ~ incl (get_parents b v) (d_cols d) -> (forall e, Permutation (axes e) (missing b e)) ->
  let N := InferOps.net_of (as_input b fs) in
  exists out, predict (pg_state axes b) b d v = Ok out /\
    Forall2 (fun r x => exists w i, In w (all_worlds N) /\ observed (seen d v r) w = true /\
      (forall w', In w' (all_worlds N) -> observed (seen d v r) w' = true -> (joint N w' <= joint N w)%Qc) /\
      nth_error (declared S v) i = Some (at_ w v) /\ x = LInt (Z.of_nat i)) (d_rows d) out.
Proof.
  intros F Id Self NDc Ic Rows Hv Hd Np Ax N. destruct (fitted_tables b S fs F) as (st & ES & SO & D & KS & _).
  destruct (evidence_rows b S fs d v F Hd Ic Rows) as (es & Ee & Fe).
  assert (HP : has_parents b d v = Ok false).
  { unfold has_parents. replace (smem v (b_nodes b)) with true by (symmetry; apply (memb_In _ String.eqb_spec); auto). f_equal.
    apply not_true_iff_false. intros X. apply Np. intros p Hp. rewrite forallb_forall in X. apply X in Hp.
    apply (memb_In _ String.eqb_spec) in Hp. auto. }
  unfold predict, predict_incomplete. rewrite HP, Ee. cbn [bind]. eexists. split; [reflexivity|]. clear Ee.
  induction Fe as [|r e l es Er _ IH]; [constructor|]. cbn [map]. constructor; auto.
  assert (Ne : b_nodes b <> []) by (intros E; rewrite E in Hv; destruct Hv).
  destruct (best_cell b S fs F Id Self Ne st ES (seen d v r) e Er (seen_NoDup d v r NDc) (seen_nodes b d Ic v r) (axes e) (Ax e)) as (c & cs & Ec & A1 & A2 & A3 & A4).
  unfold pg_state. rewrite ES, Ec. do 2 eexists. split; [exact A1|]. split; [exact A2|]. split; [exact A4|]. split; [|reflexivity]. apply A3; auto.
Qed.
