(** * NotearsThr: a threshold while learning and a threshold afterwards. *)
From Coq Require Import List Bool Arith ZArith Lia String QArith Qcanon Permutation.
From Verif Require Import Base Names QcX Digraph SmModel SmProofs SmBuild SmThms NotearsModel NotearsProofs NotearsThms TransModel MapperModel MapperProofs MapperThms DynoModel DynoProofs DynoThms.
Import ListNotations.
Local Open Scope string_scope.
Local Open Scope list_scope.
Local Open Scope nat_scope.

(** ** Specification *)
(** The same arguments with another [w_threshold]. *)
Definition thr (p : params) (t : Qc) : params := mkParams (max_iter p) (h_tol p) t.
(** Two structures a user cannot tell apart but for the order of edges. *)
Definition same_graph (g g' : graph) : Prop := nodes g = nodes g' /\ forall u v, edge_attrs g u v = edge_attrs g' u v.
Definition returns {A} (r : res A) : Prop := exists x, r = Ok x.

(** ** Proofs *)
Definition described (g : graph) (ns : list label) (o : string) (E : label -> label -> Qc -> Prop) : Prop :=
  nodes g = ns /\ NoDup (edges g) /\ (forall u v, In (u, v) (edges g) <-> exists x, E u v x) /\
  (forall u v x, E u v x -> edge_attrs g u v = Some [("origin", AStr o); ("weight", ANum x)]).

Lemma NoDup_app_l {A} (l m : list A) : NoDup (l ++ m) -> NoDup l.
Proof. induction l as [|x l IH]; cbn; intros H; constructor; inversion H; subst; auto. rewrite in_app_iff in *. tauto. Qed.
Lemma NoDup_app_r {A} (l m : list A) : NoDup (l ++ m) -> NoDup m.
Proof. induction l as [|x l IH]; cbn; intros H; auto. inversion H; auto. Qed.
Lemma NoDup_flat_in {A B} (f : A -> list B) l a : NoDup (flat_map f l) -> In a l -> NoDup (f a).
Proof.
  induction l as [|x l IH]; intros N I; [destruct I|]. cbn in N.
  destruct I as [->|I]; [eapply NoDup_app_l; eauto|apply IH; auto; eapply NoDup_app_r; eauto].
Qed.

Lemma described_wf g ns o E : described g ns o E -> NoDup ns -> (forall u v x, E u v x -> In v ns) -> wf g.
Proof.
  intros (N & ND & G & A) NN T. split; [rewrite N; auto|]. intros u s I.
  assert (Ns : NoDup (dkeys s)).
  { unfold edges, edges_data in ND. rewrite flat_map_concat_map, concat_map, map_map in ND.
    rewrite <- flat_map_concat_map in ND. apply (NoDup_flat_in _ _ (u, s)) in ND; auto. cbv beta in ND. rewrite map_map in ND. cbn [fst snd] in ND.
    rewrite <- (map_map fst (fun v => (u, v))) in ND. apply NoDup_map_inv in ND. exact ND. }
  split; auto. intros v a Ia.
  assert (Ie : In (u, v) (edges g)).
  { unfold edges. apply in_map_iff. exists (u, v, a). split; auto. unfold edges_data. apply in_flat_map. exists (u, s). split; auto.
    apply in_map_iff. exists (v, a). auto. }
  apply G in Ie. destruct Ie as (x & Ex). split; [rewrite N; eauto|].
  apply A in Ex. unfold edge_attrs, succ_of in Ex. rewrite <- N in NN. rewrite (In_dget _ label_eqb_spec g u s NN I) in Ex.
  rewrite (In_dget _ label_eqb_spec s v a Ns Ia) in Ex. injection Ex as ->. cbn. repeat constructor; cbn; intuition discriminate.
Qed.

Lemma described_attrs g ns o E : described g ns o E -> wf g ->
  forall u v a, edge_attrs g u v = Some a <-> exists x, E u v x /\ a = [("origin", AStr o); ("weight", ANum x)].
Proof.
  intros (N & ND & G & A) W u v a. split.
  - intros H. assert (I : In (u, v) (edges g)) by (apply edges_In; eauto). apply G in I. destruct I as (x & Ex). exists x. split; auto.
    apply A in Ex. congruence.
  - intros (x & Ex & ->). auto.
Qed.

Lemma cut_described g0 ns o E0 t : described g0 ns o E0 -> NoDup ns -> (forall u v x, E0 u v x -> In v ns) ->
  exists g1, remove_edges_below_threshold g0 t = (g1, Ok tt) /\ nodes g1 = ns /\
    (forall u v a, edge_attrs g1 u v = Some a <-> exists x, (E0 u v x /\ (t <= Qcabs x)%Qc) /\ a = [("origin", AStr o); ("weight", ANum x)]) /\
    forall u v y, abs_weight g0 u v y <-> exists x, E0 u v x /\ y = Qcabs x.
Proof.
  intros D NN T. pose proof (described_wf _ _ _ _ D NN T) as W. pose proof (described_attrs _ _ _ _ D W) as A.
  assert (Nu : numeric g0).
  { intros u v a I. apply edges_data_In in I; auto. apply A in I. destruct I as (x & _ & ->). exists x. reflexivity. }
  destruct (below_numeric g0 t W Nu) as (g1 & E & W1 & N1 & D1). exists g1. split; auto. split; [rewrite N1; apply D|]. split.
  - intros u v a. rewrite <- (edges_data_In g1 u v a W1), D1, filter_In, edges_data_In by auto. rewrite A, negb_true_iff, Qcltb_false. split.
    + intros [(x & Ex & ->) L]. exists x. auto.
    + intros (x & [Ex L] & ->). split; eauto.
  - intros u v y. unfold abs_weight. split.
    + intros (a & x & Ea & Ew & ->). apply A in Ea. destruct Ea as (x' & Ex & ->). cbn in Ew. injection Ew as ->. eauto.
    + intros (x & Ex & ->). exists [("origin", AStr o); ("weight", ANum x)], x. split; [apply A; eauto|]. auto.
Qed.

(** What the two kinds of cutting give. *)
Lemma ge_cut g0 g ns o E0 E t : described g0 ns o E0 -> described g ns o E -> NoDup ns ->
  (forall u v x, E0 u v x -> In v ns) -> (forall u v x, E u v x <-> E0 u v x /\ (t <= Qcabs x)%Qc) ->
  exists g1, remove_edges_below_threshold g0 t = (g1, Ok tt) /\ same_graph g g1.
Proof.
  intros D0 D NN T H. destruct (cut_described g0 ns o E0 t D0 NN T) as (g1 & E1 & N1 & A1 & _). exists g1. split; auto.
  assert (W : wf g) by (apply (described_wf _ _ _ _ D NN); intros u v x Ex; apply H in Ex; apply (T u v x), Ex).
  split; [destruct D as [-> _]; auto|]. intros u v. pose proof (described_attrs _ _ _ _ D W) as A.
  assert (I : forall a, edge_attrs g u v = Some a <-> edge_attrs g1 u v = Some a).
  { intros a. rewrite A, A1. split; intros (x & Ex & ->); exists x; split; auto; apply H; auto. }
  destruct (edge_attrs g u v) as [a|]; [symmetry; apply I; auto|]. destruct (edge_attrs g1 u v) as [a|]; auto. apply I. auto.
Qed.
Lemma gt_cut g0 g ns o E0 E t : described g0 ns o E0 -> described g ns o E -> NoDup ns ->
  (forall u v x, E0 u v x -> In v ns) -> (forall u v x, E u v x <-> E0 u v x /\ (t < Qcabs x)%Qc) ->
  exists g1, remove_edges_below_threshold g0 t = (g1, Ok tt) /\ nodes g = nodes g1 /\
    forall u v a, edge_attrs g u v = Some a <-> edge_attrs g1 u v = Some a /\ ~ abs_weight g0 u v t.
Proof.
  intros D0 D NN T H. destruct (cut_described g0 ns o E0 t D0 NN T) as (g1 & E1 & N1 & A1 & B). exists g1. split; auto.
  assert (W : wf g) by (apply (described_wf _ _ _ _ D NN); intros u v x Ex; apply H in Ex; apply (T u v x), Ex).
  assert (F : forall u v x y, E0 u v x -> E0 u v y -> x = y).
  { intros u v x y Hx Hy. apply D0 in Hx. apply D0 in Hy. congruence. }
  split; [destruct D as [-> _]; auto|]. intros u v a. pose proof (described_attrs _ _ _ _ D W) as A. rewrite A, A1, B. split.
  - intros (x & Ex & ->). apply H in Ex. destruct Ex as [Ex L]. split; [exists x; split; auto; split; auto; apply Qclt_le_weak; auto|].
    intros (y & Ey & Q). rewrite (F u v x y Ex Ey) in L. rewrite <- Q in L. apply Qclt_not_le in L. apply L. apply Qcle_refl.
  - intros [(x & [Ex L] & ->) K]. exists x. split; auto. apply H. split; auto. apply Qcle_lt_or_eq in L. destruct L as [L|L]; auto.
    exfalso. apply K. exists x. auto.
Qed.

Lemma graph_described g d name o w keep : graph_of g d name o w keep ->
  (forall i j, i < d -> j < d -> name i = name j -> i = j) ->
  described g (map name (seq 0 d)) o (fun u v x => exists i j, i < d /\ j < d /\ u = name i /\ v = name j /\ x = w i j /\ keep x).
Proof.
  intros (N & ND & G & A) Inj. split; auto. split; auto. split.
  - intros u v. rewrite G. split.
    + intros (i & j & Hi & Hj & -> & -> & K). exists (w i j), i, j. auto 10.
    + intros (x & i & j & Hi & Hj & -> & -> & -> & K). exists i, j. auto 10.
  - intros u v x (i & j & Hi & Hj & -> & -> & -> & K). apply A; auto.
Qed.
Lemma dgraph_described g d p name o w keep : dgraph_of g d p name o w keep ->
  described g (nodes g) o (fun u v x => exists k i j, k <= p /\ i < d /\ j < d /\ u = name i k /\ v = name j 0 /\ x = w k i j /\ keep x).
Proof.
  intros (ND & G & A). split; auto. split; auto. split.
  - intros u v. rewrite G. split.
    + intros (k & i & j & Hk & Hi & Hj & -> & -> & K). exists (w k i j), k, i, j. auto 10.
    + intros (x & k & i & j & Hk & Hi & Hj & -> & -> & -> & K). exists k, i, j. auto 10.
  - intros u v x (k & i & j & Hk & Hi & Hj & -> & -> & -> & K). apply A; auto.
Qed.

(** *** NOTEARS *)
Lemma numpy_runs fuel opt eh X p tb : (exists e, forall t, from_numpy fuel opt eh X (thr p t) tb = Err e) \/
  exists w, forall t, exists g, from_numpy fuel opt eh X (thr p t) tb = Ok g /\ graph_of g (m_cols X) node "unknown" (entry (m_cols X) w) (keep_gt t).
Proof.
  unfold from_numpy. destruct (negb _); [left; eauto|]. destruct (m_size X =? 0); [left; eauto|]. cbn [thr max_iter h_tol w_threshold].
  destruct (dual_ascent _ _ _ _ _ _ _) as [[s b]|e]; cbn [bind fst]; [|left; eauto].
  destruct (Nat.eq_dec (List.length (w_est s)) (m_cols X * m_cols X)) as [L|L].
  - right. exists (w_est s). intros t.
    destruct (matrix_graph (m_cols X) (cut_le t (w_est s))) as (g & E & _); [unfold cut_le; rewrite map_length; auto|].
    exists g. split; auto. eapply matrix_graph_of; [exact E|]. intros i j Hi Hj. rewrite cut_le_entry. unfold keep_gt. destruct (qle _ _) eqn:Q.
    + apply qle_iff in Q. split; [|intros [_ X1]; exfalso; apply (Qclt_not_le _ _ X1); auto].
      split; [congruence|]. intros [_ X1]. exfalso. apply (Qclt_not_le _ _ X1); auto.
    + apply qle_false in Q. tauto.
  - left. exists ValueError. intros t. unfold sm_of_matrix, cut_le. rewrite map_length. apply Nat.eqb_neq in L. rewrite L. auto.
Qed.
Lemma numpy_lasso_runs fuel opt eh X p tb : (exists e, forall t, from_numpy_lasso fuel opt eh X (thr p t) tb = Err e) \/
  exists w, forall t, exists g, from_numpy_lasso fuel opt eh X (thr p t) tb = Ok g /\ graph_of g (m_cols X) node "unknown" (entry (m_cols X) w) (keep_ge t).
Proof.
  unfold from_numpy_lasso. destruct (negb _); [left; eauto|]. destruct (m_size X =? 0); [left; eauto|]. cbn [thr max_iter h_tol w_threshold].
  destruct (dual_ascent _ _ _ _ _ _ _) as [[s b]|e]; cbn [bind fst]; [|left; eauto].
  set (w := lasso_matrix (m_cols X) (w_est s)). destruct (Nat.eq_dec (List.length w) (m_cols X * m_cols X)) as [L|L].
  - right. exists w. intros t.
    destruct (matrix_graph (m_cols X) (cut_lt t w)) as (g & E & _); [unfold cut_lt; rewrite map_length; auto|].
    exists g. split; auto. eapply matrix_graph_of; [exact E|]. intros i j Hi Hj. rewrite cut_lt_entry. unfold keep_ge. destruct (qlt _ _) eqn:Q.
    + apply qlt_iff in Q. split; [|intros [_ X1]; exfalso; apply (Qclt_not_le _ _ Q); auto].
      split; [congruence|]. intros [_ X1]. exfalso. apply (Qclt_not_le _ _ Q); auto.
    + apply qlt_false in Q. tauto.
  - left. exists ValueError. intros t. unfold sm_of_matrix, cut_lt. rewrite map_length. apply Nat.eqb_neq in L. rewrite L. auto.
Qed.

Lemma keeps_gt t0 t x : (t0 <= t)%Qc -> keep_gt t x <-> keep_gt t0 x /\ (t < Qcabs x)%Qc.
Proof. intros L. unfold keep_gt. split; [intros [A B]; split; auto; split; auto; eapply Qcle_lt_trans; eauto|tauto]. Qed.
Lemma keeps_ge t0 t x : (t0 <= t)%Qc -> keep_ge t x <-> keep_ge t0 x /\ (t <= Qcabs x)%Qc.
Proof. intros L. unfold keep_ge. split; [intros [A B]; split; auto; split; auto; eapply Qcle_trans; eauto|tauto]. Qed.

Lemma two_gt g0 g d name o w t0 t : (t0 <= t)%Qc -> (forall i j, i < d -> j < d -> name i = name j -> i = j) -> NoDup (map name (seq 0 d)) ->
  graph_of g0 d name o w (keep_gt t0) -> graph_of g d name o w (keep_gt t) ->
  exists g1, remove_edges_below_threshold g0 t = (g1, Ok tt) /\ nodes g = nodes g1 /\
    forall u v a, edge_attrs g u v = Some a <-> edge_attrs g1 u v = Some a /\ ~ abs_weight g0 u v t.
Proof.
  intros L Inj ND G0 G. apply (graph_described _ _ _ _ _ _) in G0; auto. apply (graph_described _ _ _ _ _ _) in G; auto.
  refine (gt_cut g0 g _ o _ _ t G0 G ND _ _).
  - intros u v x (i & j & Hi & Hj & _ & -> & _). apply in_map, in_seq. lia.
  - intros u v x. split.
    + intros (i & j & Hi & Hj & -> & -> & -> & K). apply (keeps_gt t0 t _ L) in K as [K1 K2]. split; auto. exists i, j. auto 10.
    + intros [(i & j & Hi & Hj & -> & -> & -> & K) K2]. exists i, j. repeat split; auto; apply K.
Qed.
Lemma two_ge g0 g d name o w t0 t : (t0 <= t)%Qc -> (forall i j, i < d -> j < d -> name i = name j -> i = j) -> NoDup (map name (seq 0 d)) ->
  graph_of g0 d name o w (keep_ge t0) -> graph_of g d name o w (keep_ge t) ->
  exists g1, remove_edges_below_threshold g0 t = (g1, Ok tt) /\ same_graph g g1.
Proof.
  intros L Inj ND G0 G. apply (graph_described _ _ _ _ _ _) in G0; auto. apply (graph_described _ _ _ _ _ _) in G; auto.
  refine (ge_cut g0 g _ o _ _ t G0 G ND _ _).
  - intros u v x (i & j & Hi & Hj & _ & -> & _). apply in_map, in_seq. lia.
  - intros u v x. split.
    + intros (i & j & Hi & Hj & -> & -> & -> & K). apply (keeps_ge t0 t _ L) in K as [K1 K2]. split; auto. exists i, j. auto 10.
    + intros [(i & j & Hi & Hj & -> & -> & -> & K) K2]. exists i, j. repeat split; auto; apply K.
Qed.

Lemma node_injective i j : node i = node j -> i = j.
Proof. intros [= H]. apply Nat2Z.inj in H. auto. Qed.

Theorem numpy_threshold fuel opt eh X p tb t0 t g0 g : (t0 <= t)%Qc ->
  from_numpy fuel opt eh X (thr p t0) tb = Ok g0 -> from_numpy fuel opt eh X (thr p t) tb = Ok g ->
  exists g1, remove_edges_below_threshold g0 t = (g1, Ok tt) /\ nodes g = nodes g1 /\
    forall u v a, edge_attrs g u v = Some a <-> edge_attrs g1 u v = Some a /\ ~ abs_weight g0 u v t.
Proof.
  intros L E0 E. destruct (numpy_runs fuel opt eh X p tb) as [(e & F)|(w & F)]; [rewrite F in E0; discriminate|].
  destruct (F t0) as (h0 & H0 & G0). destruct (F t) as (h & H & G). rewrite E0 in H0. rewrite E in H. injection H0 as <-. injection H as <-.
  eapply two_gt; [exact L| |apply node_names|exact G0|exact G]. intros i j _ _. apply node_injective.
Qed.
Theorem numpy_lasso_threshold fuel opt eh X p tb t0 t g0 g : (t0 <= t)%Qc ->
  from_numpy_lasso fuel opt eh X (thr p t0) tb = Ok g0 -> from_numpy_lasso fuel opt eh X (thr p t) tb = Ok g ->
  exists g1, remove_edges_below_threshold g0 t = (g1, Ok tt) /\ same_graph g g1.
Proof.
  intros L E0 E. destruct (numpy_lasso_runs fuel opt eh X p tb) as [(e & F)|(w & F)]; [rewrite F in E0; discriminate|].
  destruct (F t0) as (h0 & H0 & G0). destruct (F t) as (h & H & G). rewrite E0 in H0. rewrite E in H. injection H0 as <-. injection H as <-.
  eapply two_ge; [exact L| |apply node_names|exact G0|exact G]. intros i j _ _. apply node_injective.
Qed.

(** *** Data frames *)
Lemma put_weighted_ok es : forall g w attr, (forall e, In e es -> e <> WBad) -> exists g', put_weighted g es w attr = (g', Ok tt).
Proof.
  induction es as [|[u v x|] es IH]; intros g w attr H; cbn; eauto.
  - apply IH. intros e He. apply H. right; auto.
  - exfalso. apply (H WBad); [left|]; auto.
Qed.

Lemma from_pandas_ok learn X tb : NoDup (map fst (f_cols X)) -> forall tz g0 o w keep,
  forallb snd (f_cols X) = true -> tabu_index (col_idx (map fst (f_cols X))) tb = Ok tz ->
  learn (mkMat (List.length (f_cols X)) (f_rows X)) tz = Ok g0 -> graph_of g0 (List.length (f_cols X)) node o w keep ->
  returns (from_pandas learn X tb).
Proof.
  intros ND tz g0 o w keep Fb Et El (_ & _ & G & _). unfold from_pandas. rewrite Fb. cbn [negb]. rewrite Et. cbn [bind].
  rewrite map_length, El. cbn [bind]. set (cols := map fst (f_cols X)) in *.
  set (colf := fun u => match col_of (col_idx cols) u with Ok c => c | Err _ => u end).
  rewrite (mapM_ok_intro _ _ (fun e => W3 (colf (fst (fst e))) (colf (snd (fst e))) (weight_of (snd e)))).
  - cbn [bind]. unfold add_weighted_edges_from. cbn [validate_origin smem memb existsb allowed].
    change (validate_origin "learned") with (@Ok unit tt).
    match goal with |- context [put_weighted ?g ?l ?w ?a] => destruct (put_weighted_ok l g w a) as (g' & E) end.
    { intros e He. apply in_map_iff in He. destruct He as (x & <- & _). discriminate. }
    rewrite E. exists g'. reflexivity.
  - intros e He. assert (X1 : In (fst e) (edges g0)) by (apply in_map; auto). rewrite (surjective_pairing (fst e)) in X1. apply G in X1.
    destruct X1 as (i & j & Hi & Hj & E1 & E2 & _). rewrite E1, E2. unfold colf.
    assert (Lc : List.length cols = List.length (f_cols X)) by apply map_length.
    rewrite (col_of_nth cols i (col_name cols i)), (col_of_nth cols j (col_name cols j)) by (auto; apply col_name_nth; lia). auto.
Qed.

Lemma from_pandas_parts learn X tb g : from_pandas learn X tb = Ok g ->
  forallb snd (f_cols X) = true /\ exists tz, tabu_index (col_idx (map fst (f_cols X))) tb = Ok tz.
Proof.
  unfold from_pandas. destruct (forallb snd (f_cols X)); cbn [negb]; [|discriminate]. intros H. apply bind_ok in H. destruct H as (tz & E & _). eauto.
Qed.

Lemma col_name_names cols : map (col_name cols) (seq 0 (List.length cols)) = cols.
Proof. apply map_col_name. Qed.

Section Frames.
  Variables (learn : params -> mat -> tabu Z -> res graph) (keep : Qc -> Qc -> Prop) (p : params).
  Hypothesis runs : forall X tz, (exists e, forall t, learn (thr p t) X tz = Err e) \/
    exists w, forall t, exists g, learn (thr p t) X tz = Ok g /\ graph_of g (m_cols X) node "unknown" (entry (m_cols X) w) (keep t).

  Lemma frame_runs X tb t0 t g0 g : NoDup (map fst (f_cols X)) ->
    from_pandas (learn (thr p t0)) X tb = Ok g0 -> from_pandas (learn (thr p t)) X tb = Ok g ->
    exists w, let d := List.length (f_cols X) in
      graph_of g0 d (col_name (map fst (f_cols X))) "learned" (entry d w) (keep t0) /\ graph_of g d (col_name (map fst (f_cols X))) "learned" (entry d w) (keep t).
  Proof.
    intros ND E0 E. destruct (from_pandas_graph _ X tb g0 ND E0) as (tz & h0 & Et & El & R0).
    destruct (from_pandas_graph _ X tb g ND E) as (tz' & h & Et' & El' & R). rewrite Et in Et'. injection Et' as <-.
    destruct (runs (mkMat (List.length (f_cols X)) (f_rows X)) tz) as [(e & F)|(w & F)]; [rewrite F in El; discriminate|].
    exists w. cbn [m_cols] in F. destruct (F t0) as (k0 & H0 & G0). destruct (F t) as (k & H & G). rewrite El in H0. rewrite El' in H. injection H0 as <-. injection H as <-.
    split; [apply (R0 _ _ _ G0)|apply (R _ _ _ G)].
  Qed.
  Lemma frame_returns X tb t0 t : NoDup (map fst (f_cols X)) ->
    returns (from_pandas (learn (thr p t0)) X tb) -> returns (from_pandas (learn (thr p t)) X tb).
  Proof.
    intros ND (g0 & E0). destruct (from_pandas_parts _ _ _ _ E0) as (Fb & _). destruct (from_pandas_graph _ X tb g0 ND E0) as (tz & h0 & Et & El & _).
    destruct (runs (mkMat (List.length (f_cols X)) (f_rows X)) tz) as [(e & F)|(w & F)]; [rewrite F in El; discriminate|].
    destruct (F t) as (k & H & G). eapply from_pandas_ok; eauto.
  Qed.
End Frames.

Lemma col_inj (cols : list label) d : NoDup cols -> List.length cols = d -> forall i j, i < d -> j < d -> col_name cols i = col_name cols j -> i = j.
Proof. intros ND <- i j Hi Hj E. apply (proj1 (NoDup_nth cols (LInt 0)) ND); auto. Qed.

Theorem pandas_threshold fuel opt eh X p tb t0 t : NoDup (map fst (f_cols X)) -> (t0 <= t)%Qc ->
  (returns (notears_pandas fuel opt eh X (thr p t0) tb) <-> returns (notears_pandas fuel opt eh X (thr p t) tb)) /\
  forall g0 g, notears_pandas fuel opt eh X (thr p t0) tb = Ok g0 -> notears_pandas fuel opt eh X (thr p t) tb = Ok g ->
  exists g1, remove_edges_below_threshold g0 t = (g1, Ok tt) /\ nodes g = nodes g1 /\
    forall u v a, edge_attrs g u v = Some a <-> edge_attrs g1 u v = Some a /\ ~ abs_weight g0 u v t.
Proof.
  intros ND L. pose proof (fun X tz => numpy_runs fuel opt eh X p tz) as R. split.
  - split; apply (frame_returns (fun p M tz => from_numpy fuel opt eh M p tz) keep_gt p R); auto.
  - intros g0 g E0 E. destruct (frame_runs (fun p M tz => from_numpy fuel opt eh M p tz) keep_gt p R X tb t0 t g0 g ND E0 E) as (w & G0 & G).
    eapply two_gt; [exact L| | |exact G0|exact G].
    + apply col_inj; auto. apply map_length.
    + rewrite <- (map_length fst), map_col_name. auto.
Qed.
Theorem pandas_lasso_threshold fuel opt eh X p tb t0 t : NoDup (map fst (f_cols X)) -> (t0 <= t)%Qc ->
  (returns (notears_pandas_lasso fuel opt eh X (thr p t0) tb) <-> returns (notears_pandas_lasso fuel opt eh X (thr p t) tb)) /\
  forall g0 g, notears_pandas_lasso fuel opt eh X (thr p t0) tb = Ok g0 -> notears_pandas_lasso fuel opt eh X (thr p t) tb = Ok g ->
  exists g1, remove_edges_below_threshold g0 t = (g1, Ok tt) /\ same_graph g g1.
Proof.
  intros ND L. pose proof (fun X tz => numpy_lasso_runs fuel opt eh X p tz) as R. split.
  - split; apply (frame_returns (fun p M tz => from_numpy_lasso fuel opt eh M p tz) keep_ge p R); auto.
  - intros g0 g E0 E. destruct (frame_runs (fun p M tz => from_numpy_lasso fuel opt eh M p tz) keep_ge p R X tb t0 t g0 g ND E0 E) as (w & G0 & G).
    eapply two_ge; [exact L| | |exact G0|exact G].
    + apply col_inj; auto. apply map_length.
    + rewrite <- (map_length fst), map_col_name. auto.
Qed.

(** *** DYNOTEARS *)
Lemma dynamic_runs fuel opt eh X Xlags p tb : let d := m_cols X in let pp := m_cols Xlags / d in
  (exists e, forall t, learn_numpy_dynamic fuel opt eh X Xlags (thr p t) tb = Err e) \/
  exists w b, forall t, exists g, learn_numpy_dynamic fuel opt eh X Xlags (thr p t) tb = Ok (g, b) /\ nodes g = map LStr (lag_cols d pp) /\
    dgraph_of g d pp dname "unknown" w (keep_ge t).
Proof.
  intros d pp. unfold learn_numpy_dynamic. fold d. destruct (Nat.eqb_spec d 0) as [|Hd]; [left; eauto|]. fold pp.
  assert (Same : forall t, learn_dynamic fuel opt eh X Xlags (dbnds tb d pp) (thr p t) = learn_dynamic fuel opt eh X Xlags (dbnds tb d pp) p) by reflexivity.
  destruct (learn_dynamic fuel opt eh X Xlags (dbnds tb d pp) p) as [[[w a] b]|e] eqn:El.
  2:{ left. exists e. intros t. rewrite Same. reflexivity. }
  assert (Len : List.length w = d * d /\ List.length a = pp * (d * d)).
  { unfold learn_dynamic in El. destruct (m_size X =? 0); [discriminate|]. destruct (m_size Xlags =? 0); [discriminate|].
    destruct (negb _); [discriminate|]. destruct (negb _); [discriminate|]. fold d in El. cbv zeta in El. fold pp in El.
    apply bind_ok in El. destruct El as ([s b2] & Ea & El). cbn [fst snd] in El. apply bind_ok in El. destruct El as (wa & Er & El). injection El as -> ->.
    destruct (reshape_ok _ _ _ _ _ Er) as (_ & Lw & La & _). auto. }
  destruct Len as [Lw La]. right. exists (fun k i j => entry d (w ++ a) (k * d + i) j), b. intros t. rewrite Same. cbn [bind fst snd thr w_threshold].
  destruct (matrices_graph d pp (cut_lt t w) (cut_lt t a)) as (g & E & W & N & A); [lia|rewrite cut_lt_length; auto|rewrite cut_lt_length; auto|].
  exists g. rewrite E. split; auto. split; auto.
  assert (Cut : forall k i j,
     (entry d (cut_lt t w ++ cut_lt t a) (k * d + i) j <> 0%Qc <-> keep_ge t (entry d (w ++ a) (k * d + i) j)) /\
     (keep_ge t (entry d (w ++ a) (k * d + i) j) -> entry d (cut_lt t w ++ cut_lt t a) (k * d + i) j = entry d (w ++ a) (k * d + i) j)).
  { intros k i j. rewrite <- cut_lt_app, cut_lt_entry. unfold keep_ge. destruct (qlt _ _) eqn:Q.
    - apply qlt_iff in Q. split; [|intros [_ X1]; exfalso; apply (Qclt_not_le _ _ Q); auto].
      split; [congruence|]. intros [_ X1]. exfalso. apply (Qclt_not_le _ _ Q); auto.
    - apply qlt_false in Q. tauto. }
  split; [apply edges_NoDup; auto|]. split.
  - intros u v. rewrite edges_In by auto. split.
    + intros (at' & Ha). apply A in Ha. destruct Ha as (k & i & j & x & Hk & Hi & Hj & -> & -> & -> & Q & _). exists k, i, j. repeat split; auto; apply Cut; auto.
    + intros (k & i & j & Hk & Hi & Hj & -> & -> & K). eexists. apply A. exists k, i, j. eexists. repeat split; auto. apply Cut; auto.
  - intros k i j Hk Hi Hj K. apply A. exists k, i, j, (entry d (w ++ a) (k * d + i) j). destruct (Cut k i j) as [C1 C2]. repeat split; auto.
    + symmetry. auto.
    + apply K.
Qed.

Lemma two_dyn g0 g d p name w t0 t o : (t0 <= t)%Qc -> NoDup (nodes g0) -> nodes g = nodes g0 ->
  (forall i, i < d -> In (name i 0) (nodes g0)) ->
  dgraph_of g0 d p name o w (keep_ge t0) -> dgraph_of g d p name o w (keep_ge t) ->
  exists g1, remove_edges_below_threshold g0 t = (g1, Ok tt) /\ same_graph g g1.
Proof.
  intros L ND N I G0 G. apply dgraph_described in G0. apply dgraph_described in G. rewrite N in G.
  refine (ge_cut g0 g _ o _ _ t G0 G ND _ _).
  - intros u v x (k & i & j & Hk & Hi & Hj & _ & -> & _). auto.
  - intros u v x. split.
    + intros (k & i & j & Hk & Hi & Hj & -> & -> & -> & K). apply (keeps_ge t0 t _ L) in K as [K1 K2]. split; auto. exists k, i, j. auto 10.
    + intros [(k & i & j & Hk & Hi & Hj & -> & -> & -> & K) K2]. exists k, i, j. repeat split; auto; apply K.
Qed.

Lemma dname_lag_cols d p i : i < d -> In (dname i 0) (map LStr (lag_cols d p)).
Proof. intros H. unfold dname. apply in_map. unfold lag_cols. apply in_flat_map. exists 0. split; [apply in_seq; lia|]. apply in_map_iff. exists i. split; auto. apply in_seq. lia. Qed.

Theorem dynamic_threshold fuel opt eh X Xlags p tb t0 t : (t0 <= t)%Qc ->
  (returns (from_numpy_dynamic fuel opt eh X Xlags (thr p t0) tb) <-> returns (from_numpy_dynamic fuel opt eh X Xlags (thr p t) tb)) /\
  forall g0 g, from_numpy_dynamic fuel opt eh X Xlags (thr p t0) tb = Ok g0 -> from_numpy_dynamic fuel opt eh X Xlags (thr p t) tb = Ok g ->
  exists g1, remove_edges_below_threshold g0 t = (g1, Ok tt) /\ same_graph g g1.
Proof.
  intros L. unfold from_numpy_dynamic, returns. destruct (dynamic_runs fuel opt eh X Xlags p tb) as [(e & F)|(w & b & F)].
  - rewrite !F. cbn. split; [split; intros (x & H); discriminate|]. intros g0 g H. discriminate.
  - destruct (F t0) as (k0 & H0 & N0 & G0). destruct (F t) as (k & H & N & G). rewrite H0, H. cbn [bind fst]. split; [split; eauto|].
    intros g0 g [= <-] [= <-]. eapply two_dyn; [exact L| | | |exact G0|exact G].
    + rewrite N0. apply FinFun.Injective_map_NoDup; [intros x y [= E]; auto|apply lag_cols_NoDup].
    + congruence.
    + intros i Hi. rewrite N0. apply dname_lag_cols; auto.
Qed.

Theorem pandas_dynamic_threshold fuel opt eh l lags p tb t0 t g0 g : NoDup (variables l) -> (t0 <= t)%Qc ->
  from_pandas_dynamic fuel opt eh l lags (thr p t0) tb = Ok g0 -> from_pandas_dynamic fuel opt eh l lags (thr p t) tb = Ok g ->
  exists g1, remove_edges_below_threshold g0 t = (g1, Ok tt) /\ same_graph g g1.
Proof.
  intros ND L E0 E. unfold from_pandas_dynamic in *. apply bind_ok in E0. destruct E0 as ([h0 b0] & E0 & [= <-]). apply bind_ok in E. destruct E as ([h b] & E & [= <-]).
  destruct (pandas_dynamic_states _ _ _ _ _ _ _ _ _ ND E0) as (X & Xl & tz & k0 & A0 & T0 & L0 & N0 & R0).
  destruct (pandas_dynamic_states _ _ _ _ _ _ _ _ _ ND E) as (X' & Xl' & tz' & k & A & T & L1 & N & R).
  rewrite A0 in A. injection A as <- <-. rewrite T0 in T. injection T as <-.
  set (d := List.length (variables l)) in *.
  assert (Hd : 0 < d) by (destruct (numpy_dynamic_states _ _ _ _ _ _ _ _ _ L0) as (Hd & _); exact Hd).
  destruct (dynamic_runs fuel opt eh (mkMat d (map (map Fin) X)) (mkMat (lags * d) (map (map Fin) Xl)) p tz) as [(e & F)|(w & b' & F)]; [rewrite F in L0; discriminate|].
  destruct (F t0) as (j0 & H0 & _ & G0). destruct (F t) as (j & H & _ & G). rewrite L0 in H0. rewrite L1 in H. injection H0 as <- _. injection H as <- _.
  cbn [m_cols] in G0, G. rewrite Nat.div_mul in G0, G by lia. apply R0 in G0. apply R in G.
  eapply two_dyn; [exact L| | | |exact G0|exact G].
  - rewrite N0. apply pandas_nodes_NoDup; auto.
  - congruence.
  - intros i Hi. rewrite N0. apply in_flat_map. exists (cname (variables l) i). split; [apply nth_In; auto|]. apply in_map_iff. exists 0. split; auto. apply in_seq. lia.
Qed.
