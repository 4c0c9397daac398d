(** * TorchResult: everything torch_numpy returns. *)
From Coq Require Import List Bool Arith ZArith Lia String QArith Qcanon Permutation.
From Verif Require Import Base Names Digraph SmModel SmProofs SmBuild QcX NotearsModel NotearsProofs NotearsThms TorchModel TorchSpec TorchProofs TorchThms TorchGraph.
Import ListNotations.
Local Open Scope string_scope.
Local Open Scope list_scope.
Local Open Scope nat_scope.

(** ** Termination and the number of calls *)
Lemma rho_max_pow : torch_rho_max = Qcpower ten 16.
Proof. reflexivity. Qed.
Lemma pow_S e : (Qcpower ten e * ten)%Qc = Qcpower ten (S e).
Proof. cbn [Qcpower]. ring. Qed.
Lemma pow_lt_max e : qlt (Qcpower ten e) torch_rho_max = true <-> e < 16.
Proof. rewrite qlt_iff. unfold torch_rho_max. apply ten_pow_lt. Qed.

Lemma while_ge fuel : forall hf opt bnds flat al h r hn cur k r' h' cur' k',
  torch_while fuel hf opt bnds flat al h r hn cur k = Ok (r', h', cur', k') -> k <= k'.
Proof.
  induction fuel as [|f IH]; intros hf opt bnds flat al h r hn cur k r' h' cur' k'; cbn [torch_while].
  - destruct (_ && _); [discriminate|]. intros [= _ _ _ <-]. auto.
  - destruct (_ && _); [|intros [= _ _ _ <-]; auto]. intros E. apply IH in E. lia.
Qed.
Lemma while_pred (P : list Qc -> fl -> Prop) fuel : forall hf (opt : optimiser) bnds flat al h r hn cur k r' h' cur' k',
  (forall r a x k, P (opt bnds r a x k) (hf (opt bnds r a x k))) -> P cur hn ->
  torch_while fuel hf opt bnds flat al h r hn cur k = Ok (r', h', cur', k') -> P cur' h'.
Proof.
  induction fuel as [|f IH]; intros hf opt bnds flat al h r hn cur k r' h' cur' k' O C; cbn [torch_while].
  - destruct (_ && _); [discriminate|]. intros [= _ <- <- _]. auto.
  - destruct (_ && _); [|intros [= _ <- <- _]; auto]. apply IH; auto.
Qed.

Lemma while_bound fuel : forall hf opt bnds flat al h e hn cur k, (forall r a x k, hf (opt bnds r a x k) <> PInf) -> e <= 16 -> 17 - e <= fuel ->
  exists e' h' cur' k', torch_while fuel hf opt bnds flat al h (Qcpower ten e) hn cur k = Ok (Qcpower ten e', h', cur', k') /\
    e <= e' <= 16 /\ k' <= k + (e' - e) + 1 /\
    ((exists r a x j, cur' = opt bnds r a x j) \/ (cur' = cur /\ k' = k /\ h' = hn)) /\
    (e < 16 -> hn = PInf -> k < k' /\ exists r a x j, cur' = opt bnds r a x j /\ h' = hf cur').
Proof.
  induction fuel as [|f IH]; intros hf opt bnds flat al h e hn cur k Fin' He Hf; [lia|]. cbn [torch_while].
  destruct (qlt (Qcpower ten e) torch_rho_max && (flt (fscale quarter h) hn || is_pinf hn)) eqn:C.
  2:{ exists e, hn, cur, k. split; auto. split; [lia|]. split; [lia|]. split; auto. intros L ->. exfalso.
      apply andb_false_iff in C. destruct C as [C|C]; [apply pow_lt_max in L; congruence|]. cbn in C. rewrite orb_true_r in C. discriminate. }
  apply andb_true_iff in C. destruct C as [C _]. apply pow_lt_max in C. cbv zeta. set (w := opt bnds (Qcpower ten e) al flat k).
  assert (Dn : is_pinf (hf w) = false) by (pose proof (Fin' (Qcpower ten e) al flat k) as P; fold w in P; destruct (hf w); auto; congruence).
  destruct (flt (fscale quarter h) (hf w)) eqn:Q.
  - rewrite pow_S. destruct (IH hf opt bnds flat al h (S e) (hf w) w (S k) Fin') as (e' & h' & cur' & k' & E & B1 & B2 & B3 & B4); try lia.
    exists e', h', cur', k'. split; auto. split; [lia|]. split; [lia|].
    assert (G : exists r a x j, cur' = opt bnds r a x j) by (destruct B3 as [B3|(-> & _ & _)]; auto; exists (Qcpower ten e), al, flat, k; auto).
    split; auto. intros _ _. split; [apply while_ge in E; lia|].
    apply (while_pred (fun c hh => exists r a x j, c = opt bnds r a x j /\ hh = hf c) _ hf opt bnds) in E; auto.
    + intros r a x j. exists r, a, x, j. auto.
    + exists (Qcpower ten e), al, flat, k. auto.
  - destruct f as [|f].
    + lia.
    + exists e, (hf w), w, (S k). cbn [torch_while]. rewrite Q, Dn. rewrite andb_false_r. split; auto. split; [lia|]. split; [lia|].
      split; [left; exists (Qcpower ten e), al, flat, k; auto|]. intros _ _. split; [lia|]. exists (Qcpower ten e), al, flat, k. auto.
Qed.

Lemma fit_bound n : forall fuel hf opt bnds e al h cur k, (forall r a x k, hf (opt bnds r a x k) <> PInf) -> e < 16 -> 17 <= fuel ->
  exists v b k', torch_fit n fuel hf opt bnds (Qcpower ten e) al h cur k = Ok (v, b, k') /\ k' <= k + n + (16 - e).
Proof.
  induction n as [|m IH]; intros fuel hf opt bnds e al h cur k Hh He Hf; cbn [torch_fit].
  - exists cur, false, k. split; auto. lia.
  - destruct (while_bound fuel hf opt bnds cur al h e PInf cur k Hh) as (e' & h' & cur' & k' & E & B1 & B2 & _); try lia.
    rewrite E. cbn [bind]. destruct (fle h' (Fin torch_h_tol) || qle torch_rho_max (Qcpower ten e')) eqn:D.
    + exists cur', false, k'. split; auto. lia.
    + destruct m as [|m]; [eexists _, _, _; split; [reflexivity|lia]|].
      assert (e' < 16).
      { apply orb_false_iff in D. destruct D as [_ D]. apply qle_false in D. apply qlt_iff in D. apply pow_lt_max in D. auto. }
      destruct (IH fuel hf opt bnds e' (fadd al (fscale (Qcpower ten e') h')) h' cur' k' Hh) as (v & b & k2 & E2 & B); try lia.
      exists v, b, k2. split; [exact E2|lia].
Qed.

(** ** The shape of the network *)
Lemma hidden_nonempty p : hidden_units p <> [].
Proof. unfold hidden_units. destruct (tp_hidden p) as [[|x l]|]; discriminate. Qed.

Lemma net_dims_0 d hu : nth 0 (net_dims d hu) 0 = d.
Proof. unfold net_dims. destruct (_ =? _); auto. Qed.
Lemma net_dims_1 d hu : hu <> [] -> nth 1 (net_dims d hu) 0 = if hd 0 hu =? 0 then 1 else hd 0 hu.
Proof. intros N. unfold net_dims. destruct (hd 0 hu =? 0) eqn:E; auto. destruct hu; [congruence|]. reflexivity. Qed.
Lemma net_dims_pos d hu : hu <> [] -> 0 < nth 1 (net_dims d hu) 0.
Proof. intros N. rewrite net_dims_1 by auto. destruct (Nat.eqb_spec (hd 0 hu) 0); lia. Qed.

Lemma graph_weights g d name o w keep : graph_of g d name o w keep -> weights_graph g d name o w keep.
Proof. intros (A & B & C & D). split; [rewrite A; apply Permutation_refl|]. split; auto. split; auto. intros i j Hi Hj K. eexists. split; [apply D; auto|auto]. Qed.

(** ** Inversion *)
Definition fit_call fuel opt eh rnd p dts X' t' :=
  let d := width X' in
  let dims := net_dims d (hidden_units p) in
  let m1 := nth 1 dims 0 in
  torch_fit (tp_max_iter p) fuel (fun v => eh (h_size dts) (h_matrix dts d m1 v)) opt
    (torch_bnds t' d m1 ++ repeat free (n_params d (tp_bias p) dims - n_weights d m1)) 1%Qc (Fin 0%Qc) PInf
    (repeat 0%Qc (n_weights d m1 + n_bias (tp_bias p) (d * m1)) ++ rnd) 0.

Record outcome fuel opt eh act grad rnd (X : mat) (p : tparams) (ks : list (nat * kind)) (dts : list dtype) (X' : data) (t' : tabu Z) (l : learned) : Prop := mkOutcome {
  oc_dtypes : l_dtypes l = dts;
  oc_dims : l_dims l = net_dims (width X') (hidden_units p);
  oc_bias : l_use_bias l = tp_bias p;
  oc_fit : exists k, fit_call fuel opt eh rnd p dts X' t' = Ok (l_params l, l_warned l, k);
  oc_graph : effects_graph (l_graph l) (width X') node (adjacency act grad (tp_bias p) (l_dims l) (l_params l) X' false)
               (adjacency act grad (tp_bias p) (l_dims l) (l_params l) X' true) (survives (tp_threshold p));
  oc_nodes : nodes (l_graph l) = map node (seq 0 (width X'));
  oc_wf : wf (l_graph l);
  oc_collapsed : weights_graph (l_collapsed l) (m_cols X) node "unknown"
               (fold_left (fun M dt => collapse_adj dt M) dts (adjacency act grad (tp_bias p) (l_dims l) (l_params l) X' false)) (fun x => x <> 0%Qc);
  oc_biases : l_bias l = map (fun i => (node i, if tp_bias p then Some (dag_b (width X') (nth 1 (l_dims l) 0) (l_params l) i) else None)) (seq 0 (width X'));
  oc_dist : l_dist l = flat_map (fun dt => map (fun i => (node i, dt)) (dt_columns dt)) dts
}.

Lemma torch_numpy_inv fuel opt eh act grad rnd X schema p t l : torch_numpy fuel opt eh act grad rnd X schema p t = Ok l ->
  exists ks dts X' t', schema_kinds (m_cols X) schema = Ok ks /\ prepare ks (start_data X) t = Ok (dts, X', t') /\
    outcome fuel opt eh act grad rnd X p ks dts X' t' l.
Proof.
  unfold torch_numpy. destruct (m_size X =? 0); [discriminate|]. destruct (all_finite X); cbn [negb]; [|discriminate].
  intros E. apply bind_ok in E. destruct E as (ks & Ek & E). apply bind_ok in E. destruct E as ([[dts X'] t'] & Ep & E).
  change (mkData (m_cols X) (map (map finite_part) (m_rows X))) with (start_data X) in Ep.
  exists ks, dts, X', t'. split; auto. split; auto. clear Ek Ep. cbn beta iota zeta in E.
  destruct (existsb _ _); [discriminate|]. destruct (_ && _); [discriminate|].
  rewrite <- (net_dims_1 (width X')) in E by apply hidden_nonempty.
  apply bind_ok in E. destruct E as ([[v b] k] & Ef & E). cbn [fst snd] in E.
  set (adj := adjacency act grad (tp_bias p) (net_dims (width X') (hidden_units p)) v X' false) in *.
  apply bind_ok in E. destruct E as (g0 & Eg & E). destruct (threshold_graph (tp_threshold p) _ _ _ Eg) as (g1 & E1 & W1 & N1 & A1).
  apply bind_ok in E. destruct E as (g1' & E1' & E). change (threshold_step (tp_threshold p) g0 = Ok g1') in E1'. rewrite E1 in E1'. injection E1' as <-.
  destruct (effects_result _ g1 adj (adjacency act grad (tp_bias p) (net_dims (width X') (hidden_units p)) v X' true) _ W1 N1 A1) as (g2 & E2 & W2 & N2 & G2).
  apply bind_ok in E. destruct E as (g2' & E2' & E). rewrite E2 in E2'. injection E2' as <-.
  apply bind_ok in E. destruct E as (gc & Ec & E). injection E as <-. constructor; cbn [l_dtypes l_dims l_use_bias l_params l_warned l_graph l_collapsed l_bias l_dist]; auto.
  - exists k. exact Ef.
  - apply graph_weights. eapply matrix_graph_of; [exact Ec|]. intros i j Hi Hj. rewrite flatten_entry by auto. tauto.
Qed.

(** ** The learned weights *)
Lemma fit_no_banned fuel opt eh rnd p dts X' t' r : respects_bounds opt -> fit_call fuel opt eh rnd p dts X' t' = Ok r ->
  no_banned_weight t' (width X') (nth 1 (net_dims (width X') (hidden_units p)) 0) (fst (fst r)).
Proof.
  intros RB E. unfold fit_call in E. cbv zeta in E. destruct r as [vb k]. apply (torch_fit_last (fun v => no_banned_weight t' (width X') (nth 1 (net_dims (width X') (hidden_units p)) 0) v)) in E; auto.
  - intros r a x j. eapply bounds_no_banned. apply RB. apply torch_bnds_feasible.
  - apply zeros_no_banned. lia.
Qed.

(** [hidden_layer_units] is None, the empty list, or starts with 0. *)
Definition linear (p : tparams) : Prop := match tp_hidden p with None => True | Some l => hd 0 l = 0 end.
Lemma linear_units p : linear p -> hd 0 (hidden_units p) = 0.
Proof. unfold linear, hidden_units. destruct (tp_hidden p) as [[|x l]|]; auto. Qed.
Lemma linear_dims d p : linear p -> List.length (net_dims d (hidden_units p)) <= 2.
Proof. intros H. unfold net_dims. rewrite (linear_units p H). cbn. lia. Qed.

Lemma outcome_adj_zero fuel opt eh act grad rnd X p ks dts X' t' l me x y :
  respects_bounds opt -> gradient_local grad \/ linear p -> outcome fuel opt eh act grad rnd X p ks dts X' t' l ->
  x < width X' -> y < width X' -> x = y \/ banned t' (Z.of_nat x) (Z.of_nat y) ->
  adjacency act grad (tp_bias p) (l_dims l) (l_params l) X' me x y = 0%Qc.
Proof.
  intros RB G O Hx Hy B. destruct (oc_fit _ _ _ _ _ _ _ _ _ _ _ _ _ O) as (k & Ef). pose proof (fit_no_banned _ _ _ _ _ _ _ _ _ RB Ef) as Nb. cbn [fst] in Nb.
  rewrite (oc_dims _ _ _ _ _ _ _ _ _ _ _ _ _ O). apply adjacency_zero.
  - destruct G as [G|G]; auto. right. apply linear_dims. auto.
  - apply net_dims_pos, hidden_nonempty.
  - rewrite net_dims_0. auto.
  - intros m Hm. rewrite net_dims_0. apply Nb; auto.
Qed.

(** ** C36 *)
Theorem torch_no_ban fuel opt eh act grad rnd X schema p t l ks : respects_bounds opt -> gradient_local grad \/ linear p ->
  rectangular X -> (forall s, schema = Some s -> NoDup (map fst s)) -> schema_kinds (m_cols X) schema = Ok ks ->
  torch_numpy fuel opt eh act grad rnd X schema p t = Ok l ->
  forall u v, In (u, v) (edges (l_graph l)) -> exists a b x y, a < m_cols X /\ b < m_cols X /\
    u = LInt (Z.of_nat x) /\ v = LInt (Z.of_nat y) /\ In x (columns_of (expanded X ks) a) /\ In y (columns_of (expanded X ks) b) /\
    a <> b /\ ~ banned t (Z.of_nat a) (Z.of_nat b).
Proof.
  intros RB G R Ns Ek E u v H. destruct (torch_numpy_inv _ _ _ _ _ _ _ _ _ _ _ E) as (ks' & dts & X' & t' & Ek' & Ep & O).
  rewrite Ek in Ek'. injection Ek' as <-. pose proof (prepare_facts _ _ _ _ _ _ _ R Ns Ek Ep) as F.
  destruct (oc_graph _ _ _ _ _ _ _ _ _ _ _ _ _ O) as (_ & _ & Ge & _). apply Ge in H. destruct H as (x & y & Hx & Hy & -> & -> & Nz & _).
  pose proof (proj1 (fa_cover _ _ _ _ _ _ F x) Hx) as (a & Ha & Ia). pose proof (proj1 (fa_cover _ _ _ _ _ _ F y) Hy) as (b & Hb & Ib).
  assert (P : ~ (a = b \/ banned t (Z.of_nat a) (Z.of_nat b))).
  { intros P. apply Nz. eapply outcome_adj_zero; eauto. eapply (facts_banned _ _ _ _ _ _ a b); eauto. }
  exists a, b, x, y. repeat split; auto.
Qed.

Lemma block_zero (w : nat -> nat -> Qc) ca cb : (forall x y, In x ca -> In y cb -> w x y = 0%Qc) -> block_sum w ca cb = 0%Qc.
Proof. intros H. unfold block_sum. apply Qsum_all_zero. intros x Hx. apply Qsum_all_zero. intros y Hy. auto. Qed.

Lemma block_nonzero (w : nat -> nat -> Qc) ca cb : (forall x y, (0 <= w x y)%Qc) ->
  (block_sum w ca cb <> 0%Qc <-> exists x y, In x ca /\ In y cb /\ w x y <> 0%Qc).
Proof.
  intros P. split.
  - intros N. destruct (existsb (fun x => existsb (fun y => qnz (w x y)) cb) ca) eqn:E.
    + apply existsb_exists in E. destruct E as (x & Hx & E). apply existsb_exists in E. destruct E as (y & Hy & E). apply qnz_iff in E. eauto.
    + exfalso. apply N, block_zero. intros x y Hx Hy. destruct (Qc_eq_dec (w x y) 0) as [|Nz]; auto. exfalso.
      assert (existsb (fun x => existsb (fun y => qnz (w x y)) cb) ca = true); [|congruence].
      apply existsb_exists. exists x. split; auto. apply existsb_exists. exists y. split; auto. apply qnz_iff. auto.
  - intros (x & y & Hx & Hy & N) E. apply N. unfold block_sum in E. eapply (Qsum_zero_inv (fun x => Qsum (fun y => w x y) cb)) in E; eauto.
    + eapply (Qsum_zero_inv (fun y => w x y)) in E; eauto.
    + intros. apply Qsum_nonneg. auto.
Qed.

Lemma facts_collapse X ks t dts X' t' M a b : facts X ks t dts X' t' ->
  fold_left (fun M dt => collapse_adj dt M) dts M a b = block_sum M (columns_of (expanded X ks) a) (columns_of (expanded X ks) b).
Proof.
  intros F. rewrite (collapse_sum dts M (fa_nodup _ _ _ _ _ _ F) (fa_good _ _ _ _ _ _ F) (fa_fresh _ _ _ _ _ _ F)).
  unfold ecols. rewrite (fa_layout _ _ _ _ _ _ F). auto.
Qed.

Theorem torch_collapsed_no_ban fuel opt eh act grad rnd X schema p t l : respects_bounds opt -> gradient_local grad \/ linear p ->
  rectangular X -> (forall s, schema = Some s -> NoDup (map fst s)) ->
  torch_numpy fuel opt eh act grad rnd X schema p t = Ok l ->
  forall u v, In (u, v) (edges (l_collapsed l)) -> exists a b, a < m_cols X /\ b < m_cols X /\
    u = LInt (Z.of_nat a) /\ v = LInt (Z.of_nat b) /\ a <> b /\ ~ banned t (Z.of_nat a) (Z.of_nat b).
Proof.
  intros RB G R Ns E u v H. destruct (torch_numpy_inv _ _ _ _ _ _ _ _ _ _ _ E) as (ks & dts & X' & t' & Ek & Ep & O).
  pose proof (prepare_facts _ _ _ _ _ _ _ R Ns Ek Ep) as F.
  destruct (oc_collapsed _ _ _ _ _ _ _ _ _ _ _ _ _ O) as (_ & _ & Ge & _). apply Ge in H. destruct H as (a & b & Ha & Hb & -> & -> & Nz).
  assert (P : ~ (a = b \/ banned t (Z.of_nat a) (Z.of_nat b))).
  { intros P. apply Nz. rewrite (facts_collapse _ _ _ _ _ _ _ _ _ F). apply block_zero. intros x y Hx Hy.
    eapply outcome_adj_zero; eauto; try (apply (fa_cover _ _ _ _ _ _ F); eauto). eapply (facts_banned _ _ _ _ _ _ a b); eauto. }
  exists a, b. repeat split; auto.
Qed.

(** ** C38 *)
Theorem torch_collapsed fuel opt eh act grad rnd X schema p t l ks : rectangular X -> (forall s, schema = Some s -> NoDup (map fst s)) ->
  schema_kinds (m_cols X) schema = Ok ks -> torch_numpy fuel opt eh act grad rnd X schema p t = Ok l ->
  exists w, (forall x y, (0 <= w x y)%Qc) /\ (exists d m, effects_graph (l_graph l) d node w m (survives (tp_threshold p))) /\
    weights_graph (l_collapsed l) (m_cols X) node "unknown" (fun a b => block_sum w (columns_of (expanded X ks) a) (columns_of (expanded X ks) b)) (fun x => x <> 0%Qc) /\
    (forall a b, a < m_cols X -> b < m_cols X -> (In (LInt (Z.of_nat a), LInt (Z.of_nat b)) (edges (l_collapsed l)) <->
       exists x y, In x (columns_of (expanded X ks) a) /\ In y (columns_of (expanded X ks) b) /\ w x y <> 0%Qc)).
Proof.
  intros R Ns Ek E. destruct (torch_numpy_inv _ _ _ _ _ _ _ _ _ _ _ E) as (ks' & dts & X' & t' & Ek' & Ep & O).
  rewrite Ek in Ek'. injection Ek' as <-. pose proof (prepare_facts _ _ _ _ _ _ _ R Ns Ek Ep) as F.
  set (w := adjacency act grad (tp_bias p) (l_dims l) (l_params l) X' false).
  assert (Pw : forall x y, (0 <= w x y)%Qc) by (intros; apply adjacency_nonneg).
  assert (Gc : weights_graph (l_collapsed l) (m_cols X) node "unknown" (fun a b => block_sum w (columns_of (expanded X ks) a) (columns_of (expanded X ks) b)) (fun x => x <> 0%Qc)).
  { pose proof (oc_collapsed _ _ _ _ _ _ _ _ _ _ _ _ _ O) as (A & B & C & D). fold w in C, D. split; auto. split; auto. split.
    - intros u v. rewrite C. split; intros (i & j & Q); exists i, j; rewrite (facts_collapse _ _ _ _ _ _ w i j F) in *; auto.
    - intros i j Hi Hj K. rewrite <- (facts_collapse _ _ _ _ _ _ w i j F) in *. auto. }
  exists w. split; auto. split; [exists (width X'); eexists; exact (oc_graph _ _ _ _ _ _ _ _ _ _ _ _ _ O)|]. split; auto.
  intros a b Ha Hb. rewrite <- block_nonzero by auto. destruct Gc as (_ & _ & C & _). rewrite (C (LInt (Z.of_nat a)) (LInt (Z.of_nat b))). split.
  - intros (i & j & _ & _ & Ei & Ej & K). apply node_inj in Ei, Ej. subst. auto.
  - intros K. exists a, b. auto 10.
Qed.

Theorem torch_collapsed_no_threshold fuel opt eh act grad rnd X schema p t l ks : rectangular X -> (forall s, schema = Some s -> NoDup (map fst s)) ->
  schema_kinds (m_cols X) schema = Ok ks -> torch_numpy fuel opt eh act grad rnd X schema p t = Ok l ->
  (tp_threshold p = None \/ tp_threshold p = Some 0%Qc) ->
  forall a b, a < m_cols X -> b < m_cols X -> (In (LInt (Z.of_nat a), LInt (Z.of_nat b)) (edges (l_collapsed l)) <->
    exists x y, In x (columns_of (expanded X ks) a) /\ In y (columns_of (expanded X ks) b) /\ In (LInt (Z.of_nat x), LInt (Z.of_nat y)) (edges (l_graph l))).
Proof.
  intros R Ns Ek E Th a b Ha Hb. destruct (torch_numpy_inv _ _ _ _ _ _ _ _ _ _ _ E) as (ks' & dts & X' & t' & Ek' & Ep & O).
  rewrite Ek in Ek'. injection Ek' as <-. pose proof (prepare_facts _ _ _ _ _ _ _ R Ns Ek Ep) as F.
  set (w := adjacency act grad (tp_bias p) (l_dims l) (l_params l) X' false).
  assert (Pw : forall x y, (0 <= w x y)%Qc) by (intros; apply adjacency_nonneg).
  pose proof (oc_collapsed _ _ _ _ _ _ _ _ _ _ _ _ _ O) as (_ & _ & C & _). pose proof (oc_graph _ _ _ _ _ _ _ _ _ _ _ _ _ O) as (_ & _ & D & _). fold w in C, D.
  rewrite C. transitivity (block_sum w (columns_of (expanded X ks) a) (columns_of (expanded X ks) b) <> 0%Qc).
  - rewrite <- (facts_collapse _ _ _ _ _ _ w a b F). split.
    + intros (i & j & _ & _ & Ei & Ej & K). apply node_inj in Ei, Ej. subst. auto.
    + intros K. exists a, b. auto 10.
  - rewrite block_nonzero by auto. split; intros (x & y & Hx & Hy & K); exists x, y; (split; [auto|split; [auto|]]).
    + apply D. exists x, y. repeat split; auto; try (apply (fa_cover _ _ _ _ _ _ F); eauto).
      intros th Eth. destruct Th as [Th|Th]; rewrite Th in Eth; [discriminate|]. injection Eth as <-. apply Qcabs_nonneg.
    + apply D in K. destruct K as (i & j & _ & _ & Ei & Ej & K & _). apply node_inj in Ei, Ej. subst. auto.
Qed.
