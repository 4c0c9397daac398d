(** * TorchFrame: the structure learned from a data frame is the one learned from its values, renamed. *)
From Coq Require Import List Bool Arith ZArith Lia String QArith Qcanon Permutation.
From Verif Require Import Base Names Digraph SmModel SmProofs SmBuild QcX NetModel NotearsModel NotearsProofs NotearsThms TorchModel TorchSpec TorchProofs TorchThms TorchGraph TorchResult TorchPandas.
Import ListNotations.
Local Open Scope string_scope.
Local Open Scope list_scope.
Local Open Scope nat_scope.

Local Notation nspec := Nat.eqb_spec.
Local Notation lspec := label_eqb_spec.

Lemma schema_index_NoDup cols schema sz : NoDup cols -> (forall s, schema = Some s -> NoDup (map fst s)) -> schema_index cols schema = Ok sz ->
  forall s, sz = Some s -> NoDup (map fst s).
Proof.
  intros Nc Ns E s Es. unfold schema_index in E. destruct schema as [s0|]; [|congruence]. specialize (Ns s0 eq_refl).
  apply bind_ok in E. destruct E as (l & M & E). injection E as E. subst sz. injection Es as ->. apply mapM_ok in M.
  assert (G : Forall2 (fun c i => dget label_eqb (col_idx cols) c = Some i) (map fst s0) (map fst s)).
  { clear - M. induction M as [|[c a] [i b] s0 s H M IH]; cbn; constructor; auto. cbn [fst snd] in *. apply bind_ok in H. destruct H as (j & Hj & H).
    injection H as -> _. unfold get_loc in Hj. destruct (dget _ _ _); congruence. }
  clear M. revert G Ns. generalize (map fst s0) (map fst s). intros l1 l2 G. induction G as [|c i l1 l2 H G IH]; intros N; [constructor|].
  apply NoDup_cons_iff in N. destruct N as [Nx N]. constructor; auto. intros I. apply Nx.
  assert (Q : exists c', In c' l1 /\ dget label_eqb (col_idx cols) c' = Some i).
  { clear - G I. induction G as [|c' j l1 l2 H G IH]; [destruct I|]. destruct I as [->|I]; [exists c'; split; auto; left; auto|]. destruct (IH I) as (c2 & A & B). exists c2. split; auto. right; auto. }
  destruct Q as (c' & Ic & Ec). replace c with c'; auto.
  rewrite col_idx_combine in * by auto. apply (dget_In _ lspec) in H, Ec. apply combine_In_nth in H, Ec. destruct H as (a & -> & Ha), Ec as (b & Eb & Hb).
  cbn in Eb. subst. congruence.
Qed.

(** Building a graph from a list of edges between given nodes. *)
Lemma add_nodes_In ns : forall g u, In u (nodes (fold_left add_node ns g)) <-> In u (nodes g) \/ In u ns.
Proof.
  induction ns as [|n ns IH]; intros g u; cbn; [tauto|]. rewrite IH. rewrite SmProofs.add_node_nodes. intuition.
Qed.

Lemma add_nodes_no_edges ns u v : ~ In (u, v) (edges (fold_left add_node ns [])).
Proof. intros H. apply edges_In in H; [|apply wf_add_nodes, wf_nil]. destruct H as (a & H). rewrite add_nodes_attrs in H. discriminate. Qed.

Definition num_attr (a : attrs) (k : string) (x : Qc) : Prop := dget String.eqb a k = Some (ANum x).

(** The frame's result in terms of the array's. *)
Record renamed (L : list (nat * list nat)) (cols : list label) (d : nat) (name : nat -> label) (l0 l : learned) : Prop := mkRenamed {
  rn_name : forall x, x < d -> has_name cols L x (name x);
  rn_nodes : forall u, In u (nodes (l_graph l)) <-> exists x, x < d /\ u = name x;
  rn_edges : forall u v, In (u, v) (edges (l_graph l)) <-> exists x y, x < d /\ y < d /\ u = name x /\ v = name y /\ In (node x, node y) (edges (l_graph l0));
  rn_effects : (forall x y, x < d -> y < d -> name x = name y -> x = y) ->
     forall w m keep, effects_graph (l_graph l0) d node w m keep -> effects_graph (l_graph l) d name w m keep;
  rn_collapsed : forall w keep, weights_graph (l_collapsed l0) (List.length cols) node "unknown" w keep ->
     weights_graph (l_collapsed l) (List.length cols) (col_name cols) "learned" w keep;
  rn_bias : (forall x y, x < d -> y < d -> name x = name y -> x = y) ->
     forall x b, In (node x, b) (l_bias l0) -> dget label_eqb (l_bias l) (name x) = Some b;
  rn_params : l_params l = l_params l0 /\ l_dims l = l_dims l0 /\ l_dtypes l = l_dtypes l0 /\ l_use_bias l = l_use_bias l0 /\ l_warned l = l_warned l0;
  rn_wf : wf (l_graph l);
  rn_dist : (forall x y, x < d -> y < d -> name x = name y -> x = y) ->
     forall x, x < d -> exists dt, In dt (l_dtypes l) /\ In x (dt_columns dt) /\ dget label_eqb (l_dist l) (name x) = Some dt
}.

Lemma dget_names_inj (cs : list (label * option Qc)) (name : nat -> label) d (g : nat -> option Qc) :
  (forall x y, x < d -> y < d -> name x = name y -> x = y) -> cs = map (fun x => (name x, g x)) (seq 0 d) ->
  forall x, x < d -> dget label_eqb (dupdate label_eqb [] cs) (name x) = Some (g x).
Proof.
  intros I -> x Hx. rewrite (dget_dupdate _ lspec).
  assert (N : NoDup (dkeys (map (fun x => (name x, g x)) (seq 0 d)))).
  { unfold dkeys. rewrite map_map. cbn [fst]. apply NoDup_nth with (d := name 0). rewrite map_length, seq_length. intros i j Hi Hj E.
    rewrite !map_nth, !seq_nth in E by auto. apply I; auto. }
  rewrite (dget_rev_NoDup _ lspec) by auto. rewrite (In_dget _ lspec _ (name x) (g x)); auto.
  apply in_map_iff. exists x. split; auto. apply in_seq. lia.
Qed.

Lemma Forall2_impl_In {A B} (P Q : A -> B -> Prop) l m : (forall x y, In x l -> P x y -> Q x y) -> Forall2 P l m -> Forall2 Q l m.
Proof. intros H. induction 1; constructor; auto; [apply H; auto; left; auto|]. apply IHForall2. intros; apply H; auto. right; auto. Qed.

Lemma flat_map_map_fst (name : nat -> label) (dts : list dtype) : forall ds,
  Forall2 (fun (a : label * dtype) (y : label * dtype) => exists i, a = (node i, snd a) /\ y = (name i, snd a)) (flat_map (fun dt => map (fun i => (node i, dt)) (dt_columns dt)) dts) ds ->
  ds = flat_map (fun dt => map (fun i => (name i, dt)) (dt_columns dt)) dts.
Proof.
  induction dts as [|dt dts IH]; cbn [flat_map]; intros ds H; [inversion H; auto|]. apply Forall2_app_inv_l in H. destruct H as (l1 & l2 & H1 & H2 & ->).
  f_equal; [|apply IH; auto]. clear - H1. revert l1 H1. induction (dt_columns dt) as [|i is IH]; cbn [map]; intros l1 H; inversion H; subst; auto.
  cbn [map]. f_equal; [|apply IH; auto]. destruct H2 as (j & Ej & ->). injection Ej as Ej. cbn [snd]. do 2 f_equal. lia.
Qed.

Theorem torch_pandas_renamed fuel opt eh act grad rnd order X schema p t l :
  NoDup (map fst (f_cols X)) -> Forall (fun r => List.length r = List.length (f_cols X)) (f_rows X) ->
  (forall s, schema = Some s -> NoDup (map fst s)) -> (forall ds, Permutation (order ds) ds) ->
  torch_pandas fuel opt eh act grad rnd order X schema p t = Ok l ->
  let cols := map fst (f_cols X) in
  let M := mkMat (List.length cols) (f_rows X) in
  exists sz tz ks l0 name, schema_index cols schema = Ok sz /\ tabu_index (col_idx cols) t = Ok tz /\ schema_kinds (List.length cols) sz = Ok ks /\
    (forall s, sz = Some s -> NoDup (map fst s)) /\ rectangular M /\
    torch_numpy fuel opt eh act grad rnd M sz p tz = Ok l0 /\
    renamed (expanded M ks) cols (nth 0 (l_dims l0) 0) name l0 l.
Proof.
  intros Nc R Ns Po E cols M. unfold torch_pandas in E. fold cols in E. apply bind_ok in E. destruct E as (sz & Es & E).
  destruct (forallb snd (f_cols X)); cbn [negb] in E; [|discriminate]. cbv zeta in E.
  change (map (fun ci => (snd ci, fst ci)) (col_idx cols)) with (swapped cols) in E.
  apply bind_ok in E. destruct E as (tz & Et & E). apply bind_ok in E. destruct E as (l0 & El & E). fold M in El.
  destruct (torch_numpy_inv _ _ _ _ _ _ _ _ _ _ _ El) as (ks & dts & X' & t' & Ek & Ep & O).
  pose proof (schema_index_NoDup _ _ _ Nc Ns Es) as Nz.
  assert (Rm : rectangular M) by (unfold rectangular, M; cbn; unfold cols; rewrite map_length; exact R).
  pose proof (prepare_facts _ _ _ _ _ _ _ Rm Nz Ek Ep) as F.
  assert (Ed : nth 0 (l_dims l0) 0 = width X') by (rewrite (oc_dims _ _ _ _ _ _ _ _ _ _ _ _ _ O); apply net_dims_0).
  rewrite (oc_dtypes _ _ _ _ _ _ _ _ _ _ _ _ _ O) in E.
  destruct (all_names cols M ks tz dts X' t' (order dts) F Nc eq_refl (Po dts)) as (icx & Ex & Pk & Nm).
  rewrite Ex in E. cbn [bind] in E. set (d := width X') in *.
  set (name := fun x => match dget Nat.eqb icx x with Some u => u | None => LInt 0 end).
  assert (Hn : forall x, x < d -> has_name cols (expanded M ks) x (name x)) by (intros x Hx; destruct (Nm x Hx) as (u & Eu & Hu); unfold name; rewrite Eu; auto).
  assert (Nn : forall x, x < d -> name_of_node icx (node x) = Ok (name x)).
  { intros x Hx. unfold name_of_node, name. rewrite index_of_node_eq. destruct (Nm x Hx) as (u & -> & _). auto. }
  assert (Ic : forall u, In u (map snd icx) <-> exists x, x < d /\ u = name x).
  { intros u. rewrite in_map_iff. split.
    - intros ([x v] & <- & I). cbn [snd]. assert (Ix : In x (dkeys icx)) by (apply in_map_iff; exists (x, v); auto).
      exists x. split; [apply (Permutation_in _ Pk), in_seq in Ix; lia|]. unfold name. rewrite (In_dget _ nspec icx x v); auto.
      apply (Permutation_NoDup (Permutation_sym Pk)), seq_NoDup.
    - intros (x & Hx & ->). destruct (Nm x Hx) as (u & Eu & _). exists (x, u). unfold name. rewrite Eu. split; auto. apply (dget_In _ nspec) in Eu. auto. }
  pose proof (oc_graph _ _ _ _ _ _ _ _ _ _ _ _ _ O) as G0. fold d in G0. destruct G0 as (Gn & Gd & Ge & Ga).
  set (w := adjacency act grad (tp_bias p) (l_dims l0) (l_params l0) X' false) in *.
  set (m := adjacency act grad (tp_bias p) (l_dims l0) (l_params l0) X' true) in *.
  assert (W0 : wf (l_graph l0)) by apply O.
  assert (In0 : forall u v a, In (u, v, a) (edges_data (l_graph l0)) -> exists x y, x < d /\ y < d /\ u = node x /\ v = node y /\
     dget String.eqb a "weight" = Some (ANum (w x y)) /\ dget String.eqb a "mean_effect" = Some (ANum (m x y))).
  { intros u v a I. assert (Ie : In (u, v) (edges (l_graph l0))) by (apply in_map_iff; exists (u, v, a); auto). apply Ge in Ie.
    destruct Ie as (x & y & Hx & Hy & -> & -> & K). exists x, y. destruct (Ga x y Hx Hy K) as (b & Eb & Ab). apply edges_data_In in I; auto.
    rewrite I in Eb. injection Eb as <-. rewrite !Ab. auto 10. }
  (* the graph *)
  apply bind_ok in E. destruct E as (g & Eg & E).
  set (h := fun e : label * label * attrs => (name (index_of_node (fst (fst e))), name (index_of_node (snd (fst e))),
      [("weight", ANum (w (index_of_node (fst (fst e))) (index_of_node (snd (fst e))))); ("mean_effect", ANum (m (index_of_node (fst (fst e))) (index_of_node (snd (fst e)))))])).
  rewrite (foldM_map _ h put_one) in Eg.
  2:{ intros s [[u v] a] I. apply In0 in I. destruct I as (x & y & Hx & Hy & -> & -> & A1 & A2). cbn [fst snd]. rewrite !Nn by auto. cbn [bind]. rewrite A1, A2.
      unfold h. cbn [fst snd]. rewrite !index_of_node_eq. reflexivity. }
  set (base := fold_left add_node (map snd icx) []) in *.
  assert (Wb : wf base) by (apply wf_add_nodes, wf_nil).
  assert (Nb : forall u, In u (nodes base) <-> exists x, x < d /\ u = name x) by (intros u; unfold base; rewrite add_nodes_In, Ic; cbn; tauto).
  destruct (put_all (map h (edges_data (l_graph l0))) base Wb) as (g' & Eg' & Wg & Ng & Mg & Og & Dg).
  { intros u v a I. apply in_map_iff in I. destruct I as ([[u0 v0] a0] & Eh & I). apply In0 in I. destruct I as (x & y & Hx & Hy & -> & -> & _).
    unfold h in Eh. cbn [fst snd] in Eh. rewrite !index_of_node_eq in Eh. injection Eh as <- <- _. rewrite !Nb. split; eauto. }
  rewrite Eg' in Eg. injection Eg as <-.
  (* node attributes *)
  apply bind_ok in E. destruct E as (bs & Eb & E). apply bind_ok in E. destruct E as (ds & Eds & E).
  (* the collapsed graph *)
  apply bind_ok in E. destruct E as (gc & Egc & E). injection E as <-.
  exists sz, tz, ks, l0, name. split; [auto|]. split; [auto|]. split; [auto|]. split; [auto|]. split; [auto|]. split; [auto|]. rewrite Ed.
  assert (Em : forall u v, In (u, v) (map fst (map h (edges_data (l_graph l0)))) <-> exists x y, x < d /\ y < d /\ u = name x /\ v = name y /\ In (node x, node y) (edges (l_graph l0))).
  { intros u v. rewrite map_map, in_map_iff. split.
    - intros ([[u0 v0] a0] & Eh & I). pose proof I as I'. apply In0 in I. destruct I as (x & y & Hx & Hy & -> & -> & _).
      unfold h in Eh. cbn [fst snd] in Eh. rewrite !index_of_node_eq in Eh. injection Eh as <- <-. exists x, y. repeat split; auto.
      apply in_map_iff. exists (node x, node y, a0). auto.
    - intros (x & y & Hx & Hy & -> & -> & I). apply in_map_iff in I. destruct I as ([uv a] & Euv & I). cbn [fst] in Euv. subst uv. exists (node x, node y, a). split; auto.
      unfold h. cbn [fst snd]. rewrite !index_of_node_eq. auto. }
  constructor; cbn [l_graph l_collapsed l_bias l_params l_dims l_dtypes l_use_bias l_warned].
  - exact Hn.
  - intros u. rewrite Ng. apply Nb.
  - intros u v. rewrite Mg. rewrite Em. split; [intros [I|I]; auto; exfalso; revert I; apply add_nodes_no_edges|auto].
  - intros Inj w' m' keep (Pn & _ & He & Ha). split; [|split; [apply edges_NoDup; auto|split]].
    + apply NoDup_Permutation.
      * rewrite Ng. apply Wb.
      * apply NoDup_nth with (d := name 0). rewrite map_length, seq_length. intros i j Hi Hj Eij. rewrite !map_nth, !seq_nth in Eij by auto. apply Inj; auto.
      * intros u. rewrite Ng, Nb, in_map_iff. split; intros (x & A & B); exists x; [split; auto; apply in_seq; lia|apply in_seq in B; split; auto; lia].
    + intros u v. rewrite Mg, Em. split.
      * intros [I|(x & y & Hx & Hy & -> & -> & I)]; [exfalso; revert I; apply add_nodes_no_edges|]. apply He in I. destruct I as (i & j & Hi & Hj & Ei & Ej & K).
        apply node_inj in Ei, Ej. subst. exists i, j. auto.
      * intros (x & y & Hx & Hy & -> & -> & K). right. exists x, y. repeat split; auto. apply He. exists x, y. auto.
    + intros x y Hx Hy K. destruct (Ha x y Hx Hy K) as (a & Ea & Aa).
      assert (I : In (node x, node y, a) (edges_data (l_graph l0))) by (apply edges_data_In; auto).
      assert (Wm : w' x y = w x y /\ m' x y = m x y).
      { apply In0 in I. destruct I as (i & j & _ & _ & Ei & Ej & A1 & A2). apply node_inj in Ei, Ej. subst i j. rewrite Aa in A1, A2. cbn in A1, A2. split; congruence. }
      destruct Wm as [-> ->].
      eexists. split.
      * apply Dg.
        -- rewrite map_map. assert (Nd : NoDup (edges (l_graph l0))) by auto.
           unfold edges in Nd. assert (Q : map (fun x0 => fst (h x0)) (edges_data (l_graph l0)) = map (fun uv => (name (index_of_node (fst uv)), name (index_of_node (snd uv)))) (map fst (edges_data (l_graph l0)))).
           { rewrite map_map. reflexivity. }
           rewrite Q. clear Q. assert (Qi : forall u v, In (u, v) (map fst (edges_data (l_graph l0))) -> exists i j, i < d /\ j < d /\ u = node i /\ v = node j).
           { intros u v Iuv. apply in_map_iff in Iuv. destruct Iuv as ([[u1 v1] a1] & Euv & Ia). injection Euv as -> ->. apply In0 in Ia. destruct Ia as (i & j & ? & ? & ? & ? & _). eauto 10. }
           clear - Nd Qi Inj. induction (map fst (edges_data (l_graph l0))) as [|[u v] es IH]; [constructor|]. apply NoDup_cons_iff in Nd. destruct Nd as [Nu Nd].
           cbn [map]. constructor; [|apply IH; auto; intros; apply Qi; right; auto]. intros Iq. apply Nu. apply in_map_iff in Iq. destruct Iq as ([u' v'] & Eq & Iq).
           destruct (Qi u v (or_introl eq_refl)) as (i & j & Hi & Hj & -> & ->). destruct (Qi u' v' (or_intror Iq)) as (i' & j' & Hi' & Hj' & -> & ->).
           cbn [fst snd] in Eq. rewrite !index_of_node_eq in Eq. injection Eq as E1 E2. apply Inj in E1, E2; auto. subst. auto.
        -- apply in_map_iff. exists (node x, node y, a). split; [|exact I]. unfold h. cbn [fst snd]. rewrite !index_of_node_eq. reflexivity.
      * intros k. unfold new_attrs. unfold base. rewrite add_nodes_attrs. cbn [edge_attrs succ_of dget].
        cbn. destruct (String.eqb_spec k "weight") as [->|]; [reflexivity|]. destruct (String.eqb_spec k "mean_effect") as [->|]; [reflexivity|].
        destruct (String.eqb_spec k "origin") as [->|]; reflexivity.
  - intros w' keep (Cn & Cd & Ce & Ca). set (dc := List.length cols) in *.
    set (hc := fun e : label * label * attrs => (col_name cols (index_of_node (fst (fst e))), col_name cols (index_of_node (snd (fst e))),
        [("weight", ANum (w' (index_of_node (fst (fst e))) (index_of_node (snd (fst e)))))])).
    pose proof (oc_collapsed _ _ _ _ _ _ _ _ _ _ _ _ _ O) as (_ & Nde & _ & _).
    assert (InC : forall u v a, In (u, v, a) (edges_data (l_collapsed l0)) -> exists x y, x < dc /\ y < dc /\ u = node x /\ v = node y /\ keep (w' x y) /\ dget String.eqb a "weight" = Some (ANum (w' x y))).
    { intros u v a I. assert (Ie : In (u, v) (edges (l_collapsed l0))) by (apply in_map_iff; exists (u, v, a); auto). apply Ce in Ie.
      destruct Ie as (x & y & Hx & Hy & -> & -> & K). exists x, y. destruct (Ca x y Hx Hy K) as (b & Eb' & Ab). rewrite (edges_data_attrs _ _ _ _ _ Nde I Eb'), Ab. auto 10. }
    assert (Nc' : forall x, x < dc -> name_of_node (swapped cols) (node x) = Ok (col_name cols x)).
    { intros x Hx. unfold name_of_node. rewrite index_of_node_eq, swapped_get by auto. rewrite (col_name_nth cols x Hx). auto. }
    rewrite (foldM_map _ hc put_one) in Egc.
    2:{ intros s [[u v] a] I. apply InC in I. destruct I as (x & y & Hx & Hy & -> & -> & _ & A1). cbn [fst snd]. rewrite !Nc' by auto. cbn [bind]. rewrite A1.
        unfold hc. cbn [fst snd]. rewrite !index_of_node_eq. reflexivity. }
    assert (Sw : map snd (swapped cols) = cols).
    { rewrite swapped_combine by auto. clear. generalize 0. induction cols as [|c cs IH]; intros n; cbn; auto. f_equal. apply IH. }
    rewrite Sw in Egc. set (bc := fold_left add_node cols []) in *.
    assert (Wbc : wf bc) by (apply wf_add_nodes, wf_nil).
    assert (Nbc : nodes bc = cols) by (unfold bc; rewrite add_nodes_nodes; auto).
    assert (Inm : forall x, x < dc -> In (col_name cols x) cols) by (intros x Hx; unfold col_name; apply nth_In; auto).
    assert (Inj : forall x y, x < dc -> y < dc -> col_name cols x = col_name cols y -> x = y) by (intros x y Hx Hy; unfold col_name; apply (proj1 (NoDup_nth cols (LInt 0)) Nc); auto).
    destruct (put_all (map hc (edges_data (l_collapsed l0))) bc Wbc) as (gc' & Egc' & Wgc & Ngc & Mgc & Ogc & Dgc).
    { intros u v a I. apply in_map_iff in I. destruct I as ([[u0 v0] a0] & Eh & I). apply InC in I. destruct I as (x & y & Hx & Hy & -> & -> & _).
      unfold hc in Eh. cbn [fst snd] in Eh. rewrite !index_of_node_eq in Eh. injection Eh as <- <- _. rewrite Nbc. auto. }
    rewrite Egc' in Egc. injection Egc as <-.
    assert (Ec : forall u v, In (u, v) (map fst (map hc (edges_data (l_collapsed l0)))) <-> exists x y, x < dc /\ y < dc /\ u = col_name cols x /\ v = col_name cols y /\ keep (w' x y)).
    { intros u v. rewrite map_map, in_map_iff. split.
      - intros ([[u0 v0] a0] & Eh & I). apply InC in I. destruct I as (x & y & Hx & Hy & -> & -> & K & _).
        unfold hc in Eh. cbn [fst snd] in Eh. rewrite !index_of_node_eq in Eh. injection Eh as <- <-. exists x, y. auto 10.
      - intros (x & y & Hx & Hy & -> & -> & K). assert (I : In (node x, node y) (edges (l_collapsed l0))) by (apply Ce; exists x, y; auto).
        apply in_map_iff in I. destruct I as ([uv a] & Euv & I). cbn [fst] in Euv. subst uv. exists (node x, node y, a). split; auto.
        unfold hc. cbn [fst snd]. rewrite !index_of_node_eq. auto. }
    split; [rewrite Ngc, Nbc; unfold dc; rewrite map_col_name; apply Permutation_refl|]. split; [apply edges_NoDup; auto|]. split.
    + intros u v. rewrite Mgc, Ec. split; [intros [I|I]; auto; exfalso; revert I; apply add_nodes_no_edges|auto].
    + intros x y Hx Hy K. assert (I : In (node x, node y) (edges (l_collapsed l0))) by (apply Ce; exists x, y; auto).
      apply in_map_iff in I. destruct I as ([uv a] & Euv & I). cbn [fst] in Euv. subst uv.
      eexists. split; [apply (fun N => Dgc N _ _ [("weight", ANum (w' x y))])|].
      * rewrite map_map. assert (Q : map (fun x0 => fst (hc x0)) (edges_data (l_collapsed l0)) = map (fun uv => (col_name cols (index_of_node (fst uv)), col_name cols (index_of_node (snd uv)))) (map fst (edges_data (l_collapsed l0)))).
        { rewrite map_map. reflexivity. }
        rewrite Q. clear Q. unfold edges in Nde. assert (Qi : forall u v, In (u, v) (map fst (edges_data (l_collapsed l0))) -> exists i j, i < dc /\ j < dc /\ u = node i /\ v = node j).
        { intros u v Iuv. apply in_map_iff in Iuv. destruct Iuv as ([[u1 v1] a1] & Euv & Ia). injection Euv as -> ->. apply InC in Ia. destruct Ia as (i & j & ? & ? & ? & ? & _). eauto 10. }
        clear - Nde Qi Inj. induction (map fst (edges_data (l_collapsed l0))) as [|[u v] es IH]; [constructor|]. apply NoDup_cons_iff in Nde. destruct Nde as [Nu Nd].
        cbn [map]. constructor; [|apply IH; auto; intros; apply Qi; right; auto]. intros Iq. apply Nu. apply in_map_iff in Iq. destruct Iq as ([u' v'] & Eq & Iq).
        destruct (Qi u v (or_introl eq_refl)) as (i & j & Hi & Hj & -> & ->). destruct (Qi u' v' (or_intror Iq)) as (i' & j' & Hi' & Hj' & -> & ->).
        cbn [fst snd] in Eq. rewrite !index_of_node_eq in Eq. injection Eq as E1 E2. apply Inj in E1, E2; auto. subst. auto.
      * apply in_map_iff. exists (node x, node y, a). split; [|exact I]. unfold hc. cbn [fst snd]. rewrite !index_of_node_eq. reflexivity.
      * intros k. unfold new_attrs, bc. rewrite add_nodes_attrs. cbn. destruct (String.eqb_spec k "weight") as [->|]; [reflexivity|]. destruct (String.eqb_spec k "origin") as [->|]; reflexivity.
  - intros Inj x b I. rewrite (oc_biases _ _ _ _ _ _ _ _ _ _ _ _ _ O) in I, Eb. apply in_map_iff in I. destruct I as (i & Ei & Hi). injection Ei as Ei <-. assert (x = i) by lia. subst i.
    apply in_seq in Hi. fold d in Eb.
    set (gb := fun i => if tp_bias p then Some (dag_b d (nth 1 (l_dims l0) 0) (l_params l0) i) else None) in *.
    apply (dget_names_inj bs name d gb); auto; [|lia].
    apply mapM_ok in Eb. clear - Eb Nn. assert (H : forall x, In x (seq 0 d) -> x < d) by (intros x Hx; apply in_seq in Hx; lia). revert bs Eb H.
    induction (seq 0 d) as [|i is IH]; intros bs Eb H; inversion Eb; subst; cbn; auto. cbn [fst snd] in *. rewrite Nn in * by (apply H; left; auto). cbn [bind] in *.
    f_equal; [match goal with Q : Ok ?a = Ok ?b |- _ => assert (a = b) by congruence end; auto|]. apply IH; auto. intros; apply H; right; auto.
  - rewrite (oc_dtypes _ _ _ _ _ _ _ _ _ _ _ _ _ O). auto 10.
  - exact Wg.
  - intros Inj x Hx. cbn [l_dtypes l_dist]. rewrite (oc_dist _ _ _ _ _ _ _ _ _ _ _ _ _ O) in Eds.
    assert (Bd : forall dt i, In dt dts -> In i (dt_columns dt) -> i < d).
    { intros dt i Hd Hi. destruct (dt_expanded _ _ _ _ _ _ dt F Hd) as [Ha Ec]. apply (fa_cover _ _ _ _ _ _ F). exists (dt_idx dt). rewrite <- Ec. auto. }
    assert (Ds : ds = flat_map (fun dt => map (fun i => (name i, dt)) (dt_columns dt)) dts).
    { apply mapM_ok in Eds. apply flat_map_map_fst. eapply Forall2_impl_In; [|exact Eds]. intros [u dt] y Hy E. apply in_flat_map in Hy. destruct Hy as (dt' & Hd & Hi). apply in_map_iff in Hi. destruct Hi as (i & [= <- <-] & Hi).
      cbn [fst snd] in E. rewrite Nn in E by eauto. cbn [bind] in E. exists i. split; auto. cbn [snd]. congruence. }
    assert (Hc : exists a, a < m_cols M /\ In x (columns_of (expanded M ks) a)) by (apply (fa_cover _ _ _ _ _ _ F); auto).
    destruct Hc as (a & Ha & Hc). destruct (expanded_dt _ _ _ _ _ _ a F Ha) as (dt & Hd & Hi & Ec).
    assert (K : dget label_eqb (dupdate label_eqb [] ds) (name x) <> None).
    { rewrite (dget_dupdate _ lspec). intros K. destruct (dget label_eqb (rev ds) (name x)) eqn:E1; [discriminate|]. apply (dget_None _ lspec) in E1. apply E1.
      unfold dkeys. rewrite map_rev. apply -> in_rev. rewrite Ds. apply in_map_iff. exists (name x, dt). split; auto. apply in_flat_map. exists dt. split; auto. apply in_map_iff. exists x. split; auto.
      rewrite Ec. auto. }
    destruct (dget label_eqb (dupdate label_eqb [] ds) (name x)) as [dt'|] eqn:E1; [|congruence]. rewrite (dget_dupdate _ lspec) in E1.
    destruct (dget label_eqb (rev ds) (name x)) eqn:E2; [|discriminate]. injection E1 as ->. apply (dget_In _ lspec) in E2. apply in_rev in E2. rewrite Ds in E2.
    apply in_flat_map in E2. destruct E2 as (dt2 & Hd2 & Hi2). apply in_map_iff in Hi2. destruct Hi2 as (i & [= En <-] & Hi2). apply Inj in En; eauto. subst i. exists dt2. auto.
Qed.
