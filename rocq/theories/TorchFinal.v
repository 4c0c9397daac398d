(** * TorchFinal: what a user sees of the torch version, with column names. *)
From Coq Require Import List Bool Arith ZArith Lia String QArith Qcanon Permutation.
From Verif Require Import Base Names Digraph SmModel SmProofs SmBuild QcX NotearsModel NotearsProofs NotearsThms
  TorchModel TorchSpec TorchProofs TorchThms TorchGraph TorchResult TorchPandas TorchFrame.
Import ListNotations.
Local Open Scope string_scope.
Local Open Scope list_scope.
Local Open Scope nat_scope.

(** ** Where the parameters come from *)

(** The optimiser returned [v], or there was no iteration and [v] is the start: zeros for the first layer and
    [rnd] for the others. *)
Definition fitted (opt : optimiser) (rnd : list Qc) (p : tparams) (v : list Qc) : Prop :=
  (tp_max_iter p = 0 /\ exists n, v = repeat 0%Qc n ++ rnd) \/ (0 < tp_max_iter p /\ exists bnds r a x k, v = opt bnds r a x k).

Lemma fit_fitted fuel opt eh rnd p dts X' t' r : fit_call fuel opt eh rnd p dts X' t' = Ok r -> fitted opt rnd p (fst (fst r)).
Proof.
  unfold fit_call. cbv zeta. unfold fitted. destruct (tp_max_iter p) as [|m].
  - cbn [torch_fit]. intros [= <-]. left. split; auto. eexists. reflexivity.
  - intros E. right. split; [lia|]. cbn [torch_fit] in E. apply bind_ok in E. destruct E as ([[[r' h'] cur'] k'] & E1 & E). cbn beta iota in E.
    match type of E1 with torch_while _ ?hf _ ?bnds _ _ _ _ _ _ _ = _ => set (bn := bnds) in *; set (hf0 := hf) in * end.
    assert (C : exists b r a x k, cur' = opt b r a x k).
    { destruct fuel as [|f]; cbn [torch_while] in E1; change (qlt 1 torch_rho_max) with true in E1; cbn [is_pinf andb] in E1; rewrite orb_true_r in E1; [discriminate|].
      apply (while_pred (fun c _ => exists b r a x k, c = opt b r a x k) _ hf0 opt bn) in E1; auto; intros; eauto 10. }
    destruct (_ || _); [injection E as <-; exact C|]. destruct m; [injection E as <-; exact C|]. destruct r as [vb k2].
    apply (torch_fit_last (fun v => exists b r a x k, v = opt b r a x k)) in E; auto. intros; eauto 10.
Qed.

Theorem torch_graph_numpy fuel opt eh act grad rnd X schema p t l ks : rectangular X -> (forall s, schema = Some s -> NoDup (map fst s)) ->
  schema_kinds (m_cols X) schema = Ok ks -> torch_numpy fuel opt eh act grad rnd X schema p t = Ok l ->
  fitted opt rnd p (l_params l) /\
  exists Y, List.length (rows Y) = List.length (m_rows X) /\
    (forall x, x < nth 0 (l_dims l) 0 <-> exists a, a < m_cols X /\ In x (columns_of (expanded X ks) a)) /\
    effects_graph (l_graph l) (nth 0 (l_dims l) 0) (fun i => LInt (Z.of_nat i))
      (adjacency act grad (tp_bias p) (l_dims l) (l_params l) Y false) (adjacency act grad (tp_bias p) (l_dims l) (l_params l) Y true)
      (survives (tp_threshold p)).
Proof.
  intros R Ns Ek E. destruct (torch_numpy_inv _ _ _ _ _ _ _ _ _ _ _ E) as (ks' & dts & X' & t' & Ek' & Ep & O). rewrite Ek in Ek'. injection Ek' as <-.
  pose proof (prepare_facts _ _ _ _ _ _ _ R Ns Ek Ep) as F. split.
  - destruct (oc_fit _ _ _ _ _ _ _ _ _ _ _ _ _ O) as (k & Ef). apply fit_fitted in Ef. exact Ef.
  - exists X'. split; [apply (fa_rows _ _ _ _ _ _ F)|]. rewrite (oc_dims _ _ _ _ _ _ _ _ _ _ _ _ _ O), net_dims_0.
    split; [apply (fa_cover _ _ _ _ _ _ F)|]. rewrite <- (oc_dims _ _ _ _ _ _ _ _ _ _ _ _ _ O). apply (oc_graph _ _ _ _ _ _ _ _ _ _ _ _ _ O).
Qed.

(** The linear model: the weights are the absolute values and the mean effects the values of the parameters. *)
Theorem torch_graph_linear fuel opt eh act grad rnd X schema p t l : linear p -> rectangular X -> (forall s, schema = Some s -> NoDup (map fst s)) ->
  torch_numpy fuel opt eh act grad rnd X schema p t = Ok l ->
  let d := nth 0 (l_dims l) 0 in
  effects_graph (l_graph l) d (fun i => LInt (Z.of_nat i)) (fun i j => Qcabs (nth (j * d + i) (l_params l) 0%Qc)) (fun i j => nth (j * d + i) (l_params l) 0%Qc)
    (survives (tp_threshold p)).
Proof.
  intros Lp R Ns E d. destruct (torch_numpy_inv _ _ _ _ _ _ _ _ _ _ _ E) as (ks & dts & X' & t' & Ek & Ep & O).
  assert (A : forall me i j, adjacency act grad (tp_bias p) (l_dims l) (l_params l) X' me i j = (if me then nth (j * d + i) (l_params l) 0%Qc else Qcabs (nth (j * d + i) (l_params l) 0%Qc))).
  { intros me i j. unfold adjacency, d. rewrite (oc_dims _ _ _ _ _ _ _ _ _ _ _ _ _ O). pose proof (linear_dims (width X') p Lp) as L. apply Nat.leb_le in L. rewrite L.
    assert (M : nth 1 (net_dims (width X') (hidden_units p)) 0 = 1) by (unfold net_dims; rewrite (linear_units p Lp); auto).
    rewrite M. unfold dag_w. replace ((j * 1 + 0) * nth 0 (net_dims (width X') (hidden_units p)) 0 + i) with (j * nth 0 (net_dims (width X') (hidden_units p)) 0 + i) by lia. auto. }
  destruct (oc_graph _ _ _ _ _ _ _ _ _ _ _ _ _ O) as (G1 & G2 & G3 & G4). assert (D : width X' = d) by (unfold d; rewrite (oc_dims _ _ _ _ _ _ _ _ _ _ _ _ _ O), net_dims_0; auto).
  rewrite D in *. split; [exact G1|]. split; auto. split.
  - intros u v. rewrite G3. split; intros (i & j & Hi & Hj & Eu & Ev & K); exists i, j; rewrite A in *; auto 10.
  - intros i j Hi Hj K. specialize (G4 i j Hi Hj). rewrite !A in G4. auto.
Qed.

(** ** Bans *)
Theorem torch_pandas_no_ban fuel opt eh act grad rnd order X schema p t l : respects_bounds opt -> gradient_local grad \/ linear p ->
  NoDup (map fst (f_cols X)) -> Forall (fun r => List.length r = List.length (f_cols X)) (f_rows X) ->
  (forall s, schema = Some s -> NoDup (map fst s)) -> (forall ds, Permutation (order ds) ds) ->
  torch_pandas fuel opt eh act grad rnd order X schema p t = Ok l ->
  (forall u v, In (u, v) (edges (l_graph l)) -> exists c c' k k', In c (map fst (f_cols X)) /\ In c' (map fst (f_cols X)) /\
     u = category_name c k /\ v = category_name c' k' /\ c <> c' /\ ~ banned t c c') /\
  (forall u v, In (u, v) (edges (l_collapsed l)) -> In u (map fst (f_cols X)) /\ In v (map fst (f_cols X)) /\ u <> v /\ ~ banned t u v).
Proof.
  intros RB G Nc R Ns Po E. destruct (torch_pandas_renamed _ _ _ _ _ _ _ _ _ _ _ _ Nc R Ns Po E) as (sz & tz & ks & l0 & name & Es & Et & Ek & Nz & Rm & E0 & Rn).
  set (cols := map fst (f_cols X)) in *. set (M := mkMat (List.length cols) (f_rows X)) in *.
  assert (Cn : forall a b, a < List.length cols -> b < List.length cols -> a <> b -> col_name cols a <> col_name cols b).
  { intros a b Ha Hb N Q. apply N. apply (proj1 (NoDup_nth cols (LInt 0)) Nc); auto. }
  destruct (torch_numpy_inv _ _ _ _ _ _ _ _ _ _ _ E0) as (ks' & dts & X' & t' & Ek' & Ep & O).
  assert (Eks : ks' = ks) by (cbn [m_cols M] in Ek'; congruence). subst ks'. pose proof (prepare_facts _ _ _ _ _ _ _ Rm Nz Ek' Ep) as F. split.
  - intros u v H. apply (rn_edges _ _ _ _ _ _ Rn) in H. destruct H as (x & y & Hx & Hy & -> & -> & H).
    pose proof (torch_no_ban _ _ _ _ _ _ _ _ _ _ _ _ RB G Rm Nz Ek' E0 _ _ H) as (a & b & x' & y' & Ha & Hb & Ex & Ey & Ia & Ib & N & B).
    apply node_inj in Ex, Ey. subst x' y'. cbn [m_cols M] in Ha, Hb.
    destruct (rn_name _ _ _ _ _ _ Rn x Hx) as (a' & k & Ha' & Ka & ->). destruct (rn_name _ _ _ _ _ _ Rn y Hy) as (b' & k' & Hb' & Kb & ->).
    assert (a' = a) by (apply (fa_uniq _ _ _ _ _ _ F a' a x); auto; eapply nth_error_In; eauto). subst a'.
    assert (b' = b) by (apply (fa_uniq _ _ _ _ _ _ F b' b y); auto; eapply nth_error_In; eauto). subst b'.
    exists (nth a cols (LInt 0)), (nth b cols (LInt 0)), k, k'. split; [apply nth_In; auto|]. split; [apply nth_In; auto|]. split; auto. split; auto.
    split; [apply (Cn a b); auto|]. intros Q. apply B. eapply tabu_index_ban; eauto.
  - pose proof (rn_collapsed _ _ _ _ _ _ Rn _ _ (oc_collapsed _ _ _ _ _ _ _ _ _ _ _ _ _ O)) as (_ & _ & Ge & _).
    pose proof (oc_collapsed _ _ _ _ _ _ _ _ _ _ _ _ _ O) as (_ & _ & Ge0 & _).
    intros u v H. apply Ge in H. destruct H as (i & j & Hi & Hj & -> & -> & K).
    assert (H0 : In (node i, node j) (edges (l_collapsed l0))) by (apply Ge0; exists i, j; auto 10).
    destruct (torch_collapsed_no_ban _ _ _ _ _ _ _ _ _ _ _ RB G Rm Nz E0 _ _ H0) as (a & b & Ha & Hb & Ea & Eb & N & B). apply node_inj in Ea, Eb. subst a b.
    split; [apply nth_In; auto|]. split; [apply nth_In; auto|]. split; [apply Cn; auto|]. intros Q. apply B. eapply tabu_index_ban; eauto.
Qed.

(** A banned variable has no influence on what the fitted network computes for the other one. *)
Theorem torch_banned_no_influence fuel opt eh act grad rnd X schema p t l ks : respects_bounds opt ->
  rectangular X -> (forall s, schema = Some s -> NoDup (map fst s)) -> schema_kinds (m_cols X) schema = Ok ks ->
  torch_numpy fuel opt eh act grad rnd X schema p t = Ok l ->
  forall a b, a < m_cols X -> b < m_cols X -> a = b \/ banned t (Z.of_nat a) (Z.of_nat b) ->
  forall r s, (forall i, ~ In i (columns_of (expanded X ks) a) -> nth i r 0%Qc = nth i s 0%Qc) ->
  forall j, In j (columns_of (expanded X ks) b) ->
    nth j (forward act (l_use_bias l) (l_dims l) (l_params l) r) 0%Qc = nth j (forward act (l_use_bias l) (l_dims l) (l_params l) s) 0%Qc.
Proof.
  intros RB R Ns Ek E a b Ha Hb B r s H j Hj. destruct (torch_numpy_inv _ _ _ _ _ _ _ _ _ _ _ E) as (ks' & dts & X' & t' & Ek' & Ep & O).
  rewrite Ek in Ek'. injection Ek' as <-. pose proof (prepare_facts _ _ _ _ _ _ _ R Ns Ek Ep) as F.
  destruct (oc_fit _ _ _ _ _ _ _ _ _ _ _ _ _ O) as (k & Ef). apply fit_no_banned in Ef; auto. cbn [fst] in Ef.
  apply forward_local. cbv zeta. rewrite (oc_dims _ _ _ _ _ _ _ _ _ _ _ _ _ O), net_dims_0. intros i Hi (m & Hm & N). apply H. intros Ia. apply N.
  apply Ef; auto. { apply (fa_cover _ _ _ _ _ _ F). eauto. }
  eapply (facts_banned _ _ _ _ _ _ a b); eauto.
Qed.

(** ** Names *)
Theorem torch_pandas_names fuel opt eh act grad rnd order X schema p t l :
  NoDup (map fst (f_cols X)) -> Forall (fun r => List.length r = List.length (f_cols X)) (f_rows X) ->
  (forall s, schema = Some s -> NoDup (map fst s)) -> (forall ds, Permutation (order ds) ds) -> no_suffixes (map fst (f_cols X)) ->
  torch_pandas fuel opt eh act grad rnd order X schema p t = Ok l ->
  let cols := map fst (f_cols X) in
  let M := mkMat (List.length cols) (f_rows X) in
  exists sz tz ks l0 name, schema_index cols schema = Ok sz /\ tabu_index (col_idx cols) t = Ok tz /\ schema_kinds (List.length cols) sz = Ok ks /\
    torch_numpy fuel opt eh act grad rnd M sz p tz = Ok l0 /\
    let d := nth 0 (l_dims l0) 0 in
    (forall x, x < d -> has_name cols (expanded M ks) x (name x)) /\
    (forall x y, x < d -> y < d -> name x = name y -> x = y) /\
    Permutation (nodes (l_graph l)) (map name (seq 0 d)) /\
    (forall w m keep, effects_graph (l_graph l0) d (fun i => LInt (Z.of_nat i)) w m keep -> effects_graph (l_graph l) d name w m keep) /\
    (forall x b, In (LInt (Z.of_nat x), b) (l_bias l0) -> dget label_eqb (l_bias l) (name x) = Some b).
Proof.
  intros Nc R Ns Po NS E cols M. destruct (torch_pandas_renamed _ _ _ _ _ _ _ _ _ _ _ _ Nc R Ns Po E) as (sz & tz & ks & l0 & name & Es & Et & Ek & Nz & Rm & E0 & Rn).
  fold cols in Es, Et, Ek, Rm, E0, Rn, Nc, NS. fold M in Rm, E0, Rn.
  exists sz, tz, ks, l0, name. split; auto. split; auto. split; auto. split; auto. intros d.
  destruct (torch_numpy_inv _ _ _ _ _ _ _ _ _ _ _ E0) as (ks' & dts & X' & t' & Ek' & Ep & O).
  assert (Eks : ks' = ks) by (cbn [m_cols M] in Ek'; congruence). subst ks'. pose proof (prepare_facts _ _ _ _ _ _ _ Rm Nz Ek' Ep) as F.
  assert (I : forall x y, x < d -> y < d -> name x = name y -> x = y).
  { intros x y Hx Hy Q. pose proof (rn_name _ _ _ _ _ _ Rn x Hx) as A. pose proof (rn_name _ _ _ _ _ _ Rn y Hy) as B. rewrite <- Q in B.
    eapply names_distinct; eauto. }
  split; [apply (rn_name _ _ _ _ _ _ Rn)|]. split; auto. split; [|split; [apply (rn_effects _ _ _ _ _ _ Rn); auto|apply (rn_bias _ _ _ _ _ _ Rn); auto]].
  assert (D : nth 0 (l_dims l0) 0 = width X') by (rewrite (oc_dims _ _ _ _ _ _ _ _ _ _ _ _ _ O); apply net_dims_0).
  pose proof (oc_graph _ _ _ _ _ _ _ _ _ _ _ _ _ O) as G. rewrite <- D in G. apply (rn_effects _ _ _ _ _ _ Rn I) in G. apply G.
Qed.

(** ** The collapsed graph *)
Theorem torch_pandas_collapsed fuel opt eh act grad rnd order X schema p t l :
  NoDup (map fst (f_cols X)) -> Forall (fun r => List.length r = List.length (f_cols X)) (f_rows X) ->
  (forall s, schema = Some s -> NoDup (map fst s)) -> (forall ds, Permutation (order ds) ds) -> no_suffixes (map fst (f_cols X)) ->
  torch_pandas fuel opt eh act grad rnd order X schema p t = Ok l ->
  (tp_threshold p = None \/ tp_threshold p = Some 0%Qc) ->
  forall u v, In (u, v) (edges (l_collapsed l)) <->
    In u (map fst (f_cols X)) /\ In v (map fst (f_cols X)) /\ exists k k', In (category_name u k, category_name v k') (edges (l_graph l)).
Proof.
  intros Nc R Ns Po NS E Th u v. destruct (torch_pandas_renamed _ _ _ _ _ _ _ _ _ _ _ _ Nc R Ns Po E) as (sz & tz & ks & l0 & name & Es & Et & Ek & Nz & Rm & E0 & Rn).
  set (cols := map fst (f_cols X)) in *. set (M := mkMat (List.length cols) (f_rows X)) in *.
  destruct (torch_numpy_inv _ _ _ _ _ _ _ _ _ _ _ E0) as (ks' & dts & X' & t' & Ek' & Ep & O).
  assert (Eks : ks' = ks) by (cbn [m_cols M] in Ek'; congruence). subst ks'. pose proof (prepare_facts _ _ _ _ _ _ _ Rm Nz Ek' Ep) as F.
  pose proof (rn_collapsed _ _ _ _ _ _ Rn _ _ (oc_collapsed _ _ _ _ _ _ _ _ _ _ _ _ _ O)) as (_ & _ & Ge & _).
  pose proof (oc_collapsed _ _ _ _ _ _ _ _ _ _ _ _ _ O) as (_ & _ & Ge0 & _).
  pose proof (torch_collapsed_no_threshold _ _ _ _ _ _ _ _ _ _ _ _ Rm Nz Ek' E0 Th) as T. cbn [m_cols M] in T.
  assert (D : nth 0 (l_dims l0) 0 = width X') by (rewrite (oc_dims _ _ _ _ _ _ _ _ _ _ _ _ _ O); apply net_dims_0).
  assert (In_name : forall a x k, a < List.length cols -> nth_error (columns_of (expanded M ks) a) k = Some x -> x < nth 0 (l_dims l0) 0 -> name x = category_name (col_name cols a) k).
  { intros a x k Ha Kx Hx. destruct (rn_name _ _ _ _ _ _ Rn x Hx) as (a' & k1 & Ha' & Ka & ->).
    assert (a' = a) by (apply (fa_uniq _ _ _ _ _ _ F a' a x); auto; eapply nth_error_In; eauto). subst a'.
    assert (k1 = k). { apply (proj1 (NoDup_nth_error _) (fa_cols _ _ _ _ _ _ F a)); [apply nth_error_Some; congruence|congruence]. } subst k1. reflexivity. }
  rewrite Ge. split.
  - intros (a & b & Ha & Hb & -> & -> & K). split; [apply nth_In; auto|]. split; [apply nth_In; auto|].
    assert (H0 : In (node a, node b) (edges (l_collapsed l0))) by (apply Ge0; exists a, b; auto 10).
    apply T in H0; auto. destruct H0 as (x & y & Xa & Yb & H). apply In_nth_error in Xa, Yb. destruct Xa as (k & Xa), Yb as (k' & Yb). exists k, k'.
    assert (Hx : x < nth 0 (l_dims l0) 0) by (rewrite D; apply (fa_cover _ _ _ _ _ _ F); exists a; split; auto; eapply nth_error_In; eauto).
    assert (Hy : y < nth 0 (l_dims l0) 0) by (rewrite D; apply (fa_cover _ _ _ _ _ _ F); exists b; split; auto; eapply nth_error_In; eauto).
    apply (rn_edges _ _ _ _ _ _ Rn). exists x, y. rewrite (In_name a x k), (In_name b y k') by auto. auto.
  - intros (Iu & Iv & k & k' & H). apply (In_nth _ _ (LInt 0)) in Iu, Iv. destruct Iu as (a & Ha & <-), Iv as (b & Hb & <-).
    apply (rn_edges _ _ _ _ _ _ Rn) in H. destruct H as (x & y & Hx & Hy & Eu & Ev & H).
    destruct (rn_name _ _ _ _ _ _ Rn x Hx) as (a' & k1 & Ha' & Ka & En). destruct (rn_name _ _ _ _ _ _ Rn y Hy) as (b' & k2 & Hb' & Kb & En').
    rewrite <- Eu in En. rewrite <- Ev in En'. apply (category_name_inj cols) in En, En'; auto; try (apply nth_In; auto). destruct En as [En <-], En' as [En' <-].
    assert (a = a') by (apply (proj1 (NoDup_nth cols (LInt 0)) Nc); auto). assert (b = b') by (apply (proj1 (NoDup_nth cols (LInt 0)) Nc); auto). subst a' b'.
    exists a, b. split; auto. split; auto. split; auto. split; auto.
    assert (H0 : In (node a, node b) (edges (l_collapsed l0))). { apply T; auto. exists x, y. split; [eapply nth_error_In; eauto|]. split; [eapply nth_error_In; eauto|exact H]. }
    apply Ge0 in H0. destruct H0 as (i & j & Hi & Hj & Ei & Ej & K). apply node_inj in Ei, Ej. subst. auto.
Qed.

(** ** The bias of a node *)
Theorem torch_bias_linear fuel opt eh act grad rnd X schema p t l : linear p -> torch_numpy fuel opt eh act grad rnd X schema p t = Ok l ->
  forall x b, In (LInt (Z.of_nat x), b) (l_bias l) ->
    b = if tp_bias p then Some (nth x (forward act (l_use_bias l) (l_dims l) (l_params l) (repeat 0%Qc (nth 0 (l_dims l) 0))) 0%Qc) else None.
Proof.
  intros Lp E x b H. destruct (torch_numpy_inv _ _ _ _ _ _ _ _ _ _ _ E) as (ks & dts & X' & t' & Ek & Ep & O).
  rewrite (oc_biases _ _ _ _ _ _ _ _ _ _ _ _ _ O) in H. apply in_map_iff in H. destruct H as (i & [= Ei <-] & Hi). apply Nat2Z.inj in Ei. subst i. apply in_seq in Hi.
  destruct (tp_bias p) eqn:Eb; auto. f_equal. rewrite (oc_bias _ _ _ _ _ _ _ _ _ _ _ _ _ O), (oc_dims _ _ _ _ _ _ _ _ _ _ _ _ _ O), Eb.
  unfold net_dims. rewrite (linear_units p Lp). cbn [Nat.eqb nth]. unfold forward. cbn [nth net_layers tl removelast combine].
  rewrite nth_map_seq by lia. cbn [plus run_layers]. unfold dag_units. cbn [seq map nth].
  assert (Z : Qsum (fun i => (dag_w (width X') 1 (l_params l) x 0 i * nth i (repeat 0 (width X')) 0)%Qc) (seq 0 (width X')) = 0%Qc).
  { apply Qsum_all_zero. intros i _. rewrite nth_repeat. ring. }
  rewrite Z. replace (x * 1 + 0) with x by lia. ring.
Qed.
