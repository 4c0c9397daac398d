(** * SmBuild: graphs built in one go from a list of nodes and a list of distinct edges. *)
From Coq Require Import List Bool Arith ZArith Lia String QArith Qcanon Permutation.
From Verif Require Import Base Digraph SmModel SmProofs.
Import ListNotations.
Local Open Scope string_scope.
Local Open Scope list_scope.
Local Open Scope nat_scope.

Definition e3 (e : label * label * list (string * aval)) : etuple := E3 (fst (fst e)) (snd (fst e)) (snd e).

(** The attributes of a new edge. *)
Definition fresh_attrs (attr dd : list (string * aval)) : list (string * aval) :=
  dupdate String.eqb (dupdate String.eqb [] attr) dd.

Lemma add_nodes_nodes ns : forall g, NoDup (nodes g ++ ns) -> nodes (fold_left add_node ns g) = nodes g ++ ns.
Proof.
  induction ns as [|n ns IH]; intros g H; cbn; [rewrite app_nil_r; auto|].
  assert (E : nodes (add_node g n) = nodes g ++ [n]).
  { unfold add_node, dhas. replace (memb label_eqb n (dkeys g)) with false.
    - unfold nodes, dkeys. rewrite map_app. auto.
    - symmetry. apply (memb_false _ label_eqb_spec). apply NoDup_remove_2 in H. rewrite in_app_iff in H. intros X. apply H. left. exact X. }
  rewrite IH; rewrite E; rewrite <- app_assoc; auto.
Qed.

Lemma add_nodes_attrs ns : forall g u v, edge_attrs (fold_left add_node ns g) u v = edge_attrs g u v.
Proof. induction ns as [|n ns IH]; intros g u v; cbn; auto. rewrite IH. apply add_node_attrs. Qed.

Lemma add_node_present g u : In u (nodes g) -> add_node g u = g.
Proof.
  intros H. unfold add_node, dhas. replace (memb label_eqb u (dkeys g)) with true; auto. symmetry. apply (memb_In _ label_eqb_spec). auto.
Qed.

Lemma put_edge_nodes_eq g u v attr dd : In u (nodes g) -> In v (nodes g) -> nodes (put_edge g u v attr dd) = nodes g.
Proof.
  intros Hu Hv. unfold put_edge. rewrite (add_node_present g u Hu), (add_node_present g v Hv). apply dset_nodes. auto.
Qed.

Lemma put_list es attr : forall g, wf g -> NoDup (map fst es) ->
  (forall u v dd, In (u, v, dd) es -> edge_attrs g u v = None /\ In u (nodes g) /\ In v (nodes g)) ->
  exists g', put_edges g (map e3 es) attr = (g', Ok tt) /\ wf g' /\ nodes g' = nodes g /\
    (forall u v dd, In (u, v, dd) es -> edge_attrs g' u v = Some (fresh_attrs attr dd)) /\
    (forall u v, ~ In (u, v) (map fst es) -> edge_attrs g' u v = edge_attrs g u v).
Proof.
  induction es as [|[[x y] d] es IH]; intros g W ND H; cbn [map put_edges e3 fst snd].
  - exists g. split; auto. split; auto. split; auto. split; [intros ? ? ? []|auto].
  - cbn in ND. apply NoDup_cons_iff in ND. destruct ND as [N ND].
    destruct (H x y d (or_introl eq_refl)) as (Hn & Hx & Hy).
    destruct (IH (put_edge g x y attr d)) as (g' & E & W' & Nd & A & B).
    + apply wf_put_edge; auto.
    + auto.
    + intros u v dd Hin. rewrite put_edge_attrs. destruct (H u v dd (or_intror Hin)) as (Hn' & Hu & Hv).
      rewrite !put_edge_nodes_eq by auto. destruct (label_eqb_spec u x) as [->|Nu]; cbn; auto.
      destruct (label_eqb_spec v y) as [->|Nv]; cbn; auto. exfalso. apply N, in_map_iff. exists (x, y, dd). auto.
    + exists g'. split; auto. split; auto. split; [rewrite Nd; apply put_edge_nodes_eq; auto|]. split.
      * intros u v dd [[= -> -> ->]|Hin]; auto. rewrite B by auto. rewrite put_edge_attrs.
        destruct (label_eqb_spec u u); [|congruence]. destruct (label_eqb_spec v v); [|congruence]. cbn.
        unfold new_attrs. rewrite Hn. auto.
      * intros u v Hn2. cbn in Hn2. rewrite B by tauto. rewrite put_edge_attrs.
        destruct (label_eqb_spec u x) as [->|]; cbn; auto. destruct (label_eqb_spec v y) as [->|]; cbn; auto. tauto.
Qed.

Lemma put_weighted_e3 es w attr : forall g,
  put_weighted g (map (fun e => W3 (fst (fst e)) (snd (fst e)) (snd e)) es) w attr =
  put_edges g (map e3 (map (fun e : label * label * aval => (fst e, [(w, snd e)])) es)) attr.
Proof. induction es as [|[[x y] d] es IH]; intros g; cbn; auto. Qed.

Lemma edge_attrs_nil u v : edge_attrs [] u v = None.
Proof. reflexivity. Qed.

(** Nodes [ns] and distinct edges [es] between them. *)
Lemma build ns es attr : NoDup ns -> NoDup (map fst es) ->
  (forall u v dd, In (u, v, dd) es -> In u ns /\ In v ns) ->
  exists g, put_edges (fold_left add_node ns []) (map e3 es) attr = (g, Ok tt) /\ wf g /\ nodes g = ns /\
    (forall u v a, edge_attrs g u v = Some a <-> exists dd, In (u, v, dd) es /\ a = fresh_attrs attr dd).
Proof.
  intros Nn Ne H.
  assert (E0 : nodes (fold_left add_node ns []) = ns) by (rewrite add_nodes_nodes; auto).
  destruct (put_list es attr (fold_left add_node ns [])) as (g & E & W & Nd & A & B); auto.
  - apply wf_add_nodes, wf_nil.
  - intros u v dd Hin. rewrite add_nodes_attrs, edge_attrs_nil, E0. destruct (H u v dd Hin). auto.
  - exists g. split; auto. split; auto. split; [congruence|]. intros u v a. split.
    + intros Ea. destruct (in_dec (fun a b : label * label => ltac:(destruct a as [a1 a2], b as [b1 b2];
         destruct (label_eqb_spec a1 b1); [destruct (label_eqb_spec a2 b2); [left; congruence|right; congruence]|right; congruence])) (u, v) (map fst es)) as [I|I].
      * apply in_map_iff in I. destruct I as ([uv dd] & Euv & I). cbn in Euv. subst uv. exists dd. split; auto.
        rewrite (A u v dd I) in Ea. congruence.
      * rewrite B in Ea by auto. rewrite add_nodes_attrs in Ea. discriminate.
    + intros (dd & I & ->). auto.
Qed.

Lemma sm_new_build ns es o : In o allowed -> NoDup ns -> NoDup (map fst es) ->
  (forall u v dd, In (u, v, dd) es -> In u ns /\ In v ns) ->
  exists g, sm_new ns (map e3 es) o = Ok g /\ wf g /\ nodes g = ns /\
    (forall u v a, edge_attrs g u v = Some a <->
       exists dd, In (u, v, dd) es /\ a = with_origin (fresh_attrs (with_origin [] "unknown") dd) o).
Proof.
  intros Ho Nn Ne H. unfold sm_new, validate_origin.
  replace (smem o allowed) with true by (symmetry; apply (memb_In _ String.eqb_spec); auto).
  unfold add_edges_from. replace (validate_origin "unknown") with (@Ok unit tt) by reflexivity.
  destruct (build ns es (with_origin [] "unknown") Nn Ne H) as (g & E & W & Nd & A). rewrite E.
  exists (set_origins g o). split; auto. split; [apply set_origins_wf; auto|]. split; [rewrite set_origins_nodes; auto|].
  intros u v a. rewrite set_origins_attrs. destruct (edge_attrs g u v) as [b|] eqn:Eb; cbn.
  - apply A in Eb. destruct Eb as (dd & I & ->). split.
    + intros [= <-]. exists dd. auto.
    + intros (dd' & I' & ->).
      assert (X : edge_attrs g u v = Some (fresh_attrs (with_origin [] "unknown") dd)) by (apply A; eauto).
      assert (Y : edge_attrs g u v = Some (fresh_attrs (with_origin [] "unknown") dd')) by (apply A; eauto).
      rewrite X in Y. injection Y as Y. rewrite Y. reflexivity.
  - split; [discriminate|]. intros (dd & I & ->).
    assert (X : edge_attrs g u v = Some (fresh_attrs (with_origin [] "unknown") dd)) by (apply A; eauto). congruence.
Qed.

Lemma weighted_build ns es : NoDup ns -> NoDup (map fst es) ->
  (forall u v w, In (u, v, w) es -> In u ns /\ In v ns) ->
  exists g, add_weighted_edges_from (fold_left add_node ns []) (map (fun e => W3 (fst (fst e)) (snd (fst e)) (snd e)) es) "weight" "learned" [] = (g, Ok tt) /\
    wf g /\ nodes g = ns /\
    (forall u v a, edge_attrs g u v = Some a <-> exists w, In (u, v, w) es /\ a = [("origin", AStr "learned"); ("weight", w)]).
Proof.
  intros Nn Ne H. unfold add_weighted_edges_from. replace (validate_origin "learned") with (@Ok unit tt) by reflexivity.
  rewrite put_weighted_e3.
  destruct (build ns (map (fun e : label * label * aval => (fst e, [("weight", snd e)])) es) (with_origin (with_origin [] "learned") "learned")) as (g & E & W & Nd & A); auto.
  - rewrite map_map. cbn [fst]. auto.
  - intros u v dd I. apply in_map_iff in I. destruct I as ([uv w] & [= E <-] & I). cbn in E. subst uv. eapply H. eauto.
  - exists g. split; auto. split; auto. split; auto. intros u v a. rewrite A. split.
    + intros (dd & I & ->). apply in_map_iff in I. destruct I as ([uv w] & [= E1 <-] & I). cbn in E1. subst uv. exists w. auto.
    + intros (w & I & ->). exists [("weight", w)]. split; auto. apply in_map_iff. exists (u, v, w). auto.
Qed.
