(** * SmCopy: copies and conversions of a StructureModel keep what they should. *)
From Coq Require Import List Bool Arith ZArith Lia String QArith Qcanon Permutation.
From Verif Require Import Base Digraph SmModel SmProofs SmHist SmThms SmBuild CopyModel.
Import ListNotations.
Local Open Scope string_scope.
Local Open Scope list_scope.

(** ** Specification *)
(** The value of attribute [k] of the edge from [u] to [v]; nothing if there is no such edge or attribute. *)
Definition attribute (g : graph) (u v : label) (k : string) : option aval :=
  match edge_attrs g u v with Some d => dget String.eqb d k | None => None end.
Definition has_edge (g : graph) (u v : label) : Prop := exists d, edge_attrs g u v = Some d.
(** [x] is listed before [y]. *)
Definition before (l : list label) (x y : label) : Prop := exists l1 l2 l3, l = l1 ++ x :: l2 ++ y :: l3.

(** ** Proofs *)
Lemma get_update (d e : list (string * aval)) k : NoDup (dkeys e) -> dget String.eqb (dupdate String.eqb d e) k = match dget String.eqb e k with Some v => Some v | None => dget String.eqb d k end.
Proof. intros H. rewrite (dget_dupdate _ String.eqb_spec). rewrite (dget_rev_NoDup _ String.eqb_spec) by auto. reflexivity. Qed.

Lemma triples_e3 es : triples es = map e3 es. Proof. reflexivity. Qed.

Lemma edges_data_keys g : wf g -> forall u v a, In (u, v, a) (edges_data g) -> In u (nodes g) /\ In v (nodes g) /\ NoDup (dkeys a).
Proof.
  intros W u v a I. unfold edges_data in I. apply in_flat_map in I. destruct I as ([u' s] & Ig & I). apply in_map_iff in I.
  destruct I as ([v' a'] & [= -> -> ->] & I). destruct W as [_ W]. destruct (W u s Ig) as [_ W2]. destruct (W2 v a I) as [Hv Ha].
  split; auto. unfold nodes, dkeys. apply in_map_iff. exists (u, s). auto.
Qed.

(** Filling a new StructureModel with the edges [es]. *)
Lemma filled ns es : NoDup ns -> NoDup (map fst es) -> (forall u v d, In (u, v, d) es -> In u ns /\ In v ns /\ NoDup (dkeys d) /\ dget String.eqb d "origin" <> None) ->
  let h := fst (add_edges_from (fold_left add_node ns []) (triples es) "unknown" []) in
  nodes h = ns /\ wf h /\ (forall u v, has_edge h u v <-> In (u, v) (map fst es)) /\
  (forall u v d, In (u, v, d) es -> forall k, attribute h u v k = dget String.eqb d k).
Proof.
  intros Nn Ne H. rewrite triples_e3. unfold add_edges_from. change (validate_origin "unknown") with (@Ok unit tt).
  destruct (build ns es (with_origin [] "unknown") Nn Ne) as (h & E & W & N & A).
  { intros u v d I. destruct (H u v d I) as (A & B & _). auto. }
  rewrite E. cbn [fst]. split; auto. split; auto. split.
  - intros u v. unfold has_edge. split.
    + intros (d & Ed). apply A in Ed. destruct Ed as (dd & I & _). apply in_map_iff. exists (u, v, dd). auto.
    + intros I. apply in_map_iff in I. destruct I as ([uv dd] & E1 & I). cbn in E1. subst uv. eexists. apply A. eauto.
  - intros u v d I k. unfold attribute. rewrite (proj2 (A u v (fresh_attrs (with_origin [] "unknown") d))) by eauto.
    destruct (H u v d I) as (_ & _ & ND & O). unfold fresh_attrs. rewrite get_update by auto.
    destruct (dget String.eqb d k) eqn:Ek; auto. cbn. destruct (String.eqb_spec k "origin") as [->|]; [congruence|reflexivity].
Qed.

Lemma edge_data g u v : wf g -> has_edge g u v -> exists d, In (u, v, d) (edges_data g) /\ edge_attrs g u v = Some d.
Proof. intros W (d & E). exists d. split; auto. apply edges_data_In; auto. Qed.

Theorem copied g : reached g -> nodes (copy g) = nodes g /\ nodes (to_directed g) = nodes g /\
  (forall u v, has_edge (copy g) u v <-> has_edge g u v) /\ (forall u v, has_edge (to_directed g) u v <-> has_edge g u v) /\
  (forall u v k, attribute (copy g) u v k = attribute g u v k) /\ (forall u v k, attribute (to_directed g) u v k = attribute g u v k).
Proof.
  intros R. pose proof (reached_wf g R) as W. pose proof (reached_origins g R) as O.
  assert (X : nodes (copy g) = nodes g /\ wf (copy g) /\ (forall u v, has_edge (copy g) u v <-> In (u, v) (edges g)) /\
    (forall u v d, In (u, v, d) (edges_data g) -> forall k, attribute (copy g) u v k = dget String.eqb d k)).
  { apply (filled (nodes g) (edges_data g)); [apply W|apply edges_NoDup; auto|]. intros u v d I. destruct (edges_data_keys g W u v d I) as (A & B & C).
    repeat split; auto. apply (O u v d). apply edges_data_In; auto. }
  destruct X as (N & _ & E & A). change (to_directed g) with (copy g).
  assert (E' : forall u v, has_edge (copy g) u v <-> has_edge g u v).
  { intros u v. rewrite E. unfold has_edge. rewrite edges_In by auto. tauto. }
  assert (A' : forall u v k, attribute (copy g) u v k = attribute g u v k).
  { intros u v k. unfold attribute at 2. destruct (edge_attrs g u v) as [d|] eqn:Ed.
    - apply A. apply edges_data_In; auto.
    - unfold attribute. destruct (edge_attrs (copy g) u v) as [d|] eqn:Ec; auto.
      assert (H : has_edge g u v) by (apply E'; eexists; eauto). destruct H as (d' & H). congruence. }
  auto 10.
Qed.

Lemma swap_NoDup (es : list (label * label * list (string * aval))) :
  NoDup (map fst es) -> NoDup (map fst (map (fun e => (snd (fst e), fst (fst e), snd e)) es)).
Proof.
  rewrite map_map. cbn [fst]. intros ND. rewrite <- (map_map fst (fun uv : label * label => (snd uv, fst uv))).
  apply FinFun.Injective_map_NoDup; auto. intros [a b] [c d] [= -> ->]. auto.
Qed.
Lemma swap_In (es : list (label * label * list (string * aval))) u v d :
  In (u, v, d) (map (fun e => (snd (fst e), fst (fst e), snd e)) es) <-> In (v, u, d) es.
Proof. rewrite in_map_iff. split; [intros ([[a b] c] & [= <- <- <-] & I); auto|intros I; exists (v, u, d); auto]. Qed.

Lemma reverse_wf g : wf g -> has_origins g ->
  nodes (reverse g) = nodes g /\ wf (reverse g) /\ has_origins (reverse g) /\ (forall u v, has_edge (reverse g) u v <-> has_edge g v u) /\
  (forall u v k, attribute (reverse g) u v k = attribute g v u k).
Proof.
  intros W O.
  assert (X : nodes (reverse g) = nodes g /\ wf (reverse g) /\ (forall u v, has_edge (reverse g) u v <-> In (u, v) (map fst (map (fun e => (snd (fst e), fst (fst e), snd e)) (edges_data g)))) /\
    (forall u v d, In (u, v, d) (map (fun e => (snd (fst e), fst (fst e), snd e)) (edges_data g)) -> forall k, attribute (reverse g) u v k = dget String.eqb d k)).
  { apply filled; [apply W|apply swap_NoDup, edges_NoDup; auto|]. intros u v d I. rewrite swap_In in I. destruct (edges_data_keys g W v u d I) as (A & B & C).
    repeat split; auto. apply (O v u d). apply edges_data_In; auto. }
  destruct X as (N & W' & E & A).
  assert (E' : forall u v, has_edge (reverse g) u v <-> has_edge g v u).
  { intros u v. rewrite E. unfold has_edge. rewrite <- edges_In by auto. unfold edges. rewrite !in_map_iff. split.
    - intros ([[x y] d] & [= -> ->] & I). rewrite swap_In in I. exists (v, u, d). auto.
    - intros ([[x y] d] & [= -> ->] & I). exists (u, v, d). split; auto. rewrite swap_In. auto. }
  assert (A' : forall u v k, attribute (reverse g) u v k = attribute g v u k).
  { intros u v k. unfold attribute at 2. destruct (edge_attrs g v u) as [d|] eqn:Ed.
    - apply A. rewrite swap_In. apply edges_data_In; auto.
    - unfold attribute. destruct (edge_attrs (reverse g) u v) as [d|] eqn:Ec; auto.
      assert (H : has_edge g v u) by (apply E'; eexists; eauto). destruct H as (d' & H). congruence. }
  split; auto. split; auto. split; [|split; auto]. intros u v d Ed.
  assert (H : has_edge g v u) by (apply E'; eexists; eauto). destruct H as (d' & H). pose proof (A' u v "origin") as Q. unfold attribute in Q.
  rewrite Ed, H in Q. rewrite Q. apply (O v u d' H).
Qed.

Theorem reversed g : reached g -> nodes (reverse g) = nodes g /\ (forall u v, has_edge (reverse g) u v <-> has_edge g v u) /\
  (forall u v k, attribute (reverse g) u v k = attribute g v u k) /\
  (forall u v k, attribute (reverse (reverse g)) u v k = attribute g u v k) /\ (forall u v, has_edge (reverse (reverse g)) u v <-> has_edge g u v).
Proof.
  intros R. destruct (reverse_wf g (reached_wf g R) (reached_origins g R)) as (N & W & O & E & A).
  destruct (reverse_wf (reverse g) W O) as (N2 & _ & _ & E2 & A2). split; auto. split; auto. split; auto. split.
  - intros u v k. rewrite A2, A. auto.
  - intros u v. rewrite E2, E. tauto.
Qed.

Theorem from_graph_origin g o : reached g -> In o ["unknown"; "learned"; "expert"] -> exists h, from_graph g o = Ok h /\ nodes h = nodes g /\
  (forall u v, has_edge h u v <-> has_edge g u v) /\
  (forall u v k, k <> "origin" -> attribute h u v k = attribute g u v k) /\ (forall u v, has_edge g u v -> attribute h u v "origin" = Some (AStr o)).
Proof.
  intros R Ho. pose proof (reached_wf g R) as W. unfold from_graph. rewrite triples_e3.
  destruct (sm_new_build (nodes g) (edges_data g) o) as (h & E & W' & N & A).
  - cbn in *. tauto.
  - apply W.
  - apply edges_NoDup; auto.
  - intros u v d I. destruct (edges_data_keys g W u v d I) as (X & Y & _). auto.
  - exists h. split; auto. split; auto.
    assert (Ed : forall u v d, edge_attrs g u v = Some d -> edge_attrs h u v = Some (with_origin (fresh_attrs (with_origin [] "unknown") d) o)).
    { intros u v d H. apply A. exists d. split; auto. apply edges_data_In; auto. }
    assert (He : forall u v, has_edge h u v <-> has_edge g u v).
    { intros u v. unfold has_edge. split; intros (d & H).
      - apply A in H. destruct H as (dd & I & _). exists dd. apply edges_data_In; auto.
      - eexists. apply (Ed u v d H). }
    split; auto. split.
    + intros u v k Hk. unfold attribute. destruct (edge_attrs g u v) as [d|] eqn:H.
      * rewrite (Ed u v d H). unfold with_origin at 1. rewrite (dget_dset _ String.eqb_spec). destruct (String.eqb_spec k "origin"); [congruence|].
        unfold fresh_attrs. rewrite get_update. 2:{ apply (edges_data_keys g W u v). apply edges_data_In; auto. }
        destruct (dget String.eqb d k); auto. cbn. destruct (String.eqb_spec k "origin"); [congruence|reflexivity].
      * destruct (edge_attrs h u v) as [d|] eqn:H2; auto. assert (X : has_edge g u v) by (apply He; eexists; eauto). destruct X as (d' & X). congruence.
    + intros u v (d & H). unfold attribute. rewrite (Ed u v d H). unfold with_origin at 1. rewrite (dget_dset_same _ String.eqb_spec). auto.
Qed.

(** *** Undirected *)
Definition joins (u v : label) (e : label * label) : bool :=
  (label_eqb (fst e) u && label_eqb (snd e) v) || (label_eqb (fst e) v && label_eqb (snd e) u).
Definition sym (h : graph) : Prop := forall u v, edge_attrs h u v = edge_attrs h v u.

Lemma put_attrs (h : graph) u v d x y :
  edge_attrs (dset label_eqb h u (dset label_eqb (succ_of h u) v d)) x y = if label_eqb x u && label_eqb y v then Some d else edge_attrs h x y.
Proof.
  unfold edge_attrs at 1, succ_of at 1. rewrite (dget_dset _ label_eqb_spec). destruct (label_eqb_spec x u) as [->|N]; cbn [andb]; [|reflexivity].
  rewrite (dget_dset _ label_eqb_spec). destruct (label_eqb_spec y v); auto.
Qed.
Lemma joins_iff u v e : joins u v e = true <-> e = (u, v) \/ e = (v, u).
Proof.
  unfold joins. destruct e as [a b]. cbn [fst snd]. rewrite orb_true_iff, !andb_true_iff.
  destruct (label_eqb_spec a u), (label_eqb_spec b v), (label_eqb_spec a v), (label_eqb_spec b u); subst; split; intros H; auto;
  try (destruct H as [[H1 H2]|[H1 H2]]; try discriminate; auto; fail);
  destruct H as [H|H]; inversion H; subst; try congruence; auto.
Qed.
Lemma joins_false u v e : joins u v e = false -> e <> (u, v) /\ e <> (v, u).
Proof. intros H. split; intros ->; assert (X : joins u v (u, v) = true \/ joins u v (v, u) = true) by (left; apply joins_iff; auto); rewrite (proj2 (joins_iff u v _)) in H; auto; discriminate. Qed.

Lemma put_uedge_attrs h a b dd u v : sym h -> edge_attrs (put_uedge h a b dd) u v =
  if joins u v (a, b) then Some (dupdate String.eqb (match edge_attrs h u v with Some d => d | None => [] end) dd) else edge_attrs h u v.
Proof.
  intros S. unfold put_uedge. cbv zeta. rewrite put_attrs, put_attrs, !add_node_attrs.
  destruct (joins u v (a, b)) eqn:J.
  - apply joins_iff in J. destruct J as [[= -> ->]|[= -> ->]].
    + destruct (label_eqb_spec u u); [|congruence]. destruct (label_eqb_spec v v); [|congruence]. cbn [andb]. destruct (_ && _); auto.
    + destruct (label_eqb_spec u u); [|congruence]. destruct (label_eqb_spec v v); [|congruence]. cbn [andb]. rewrite (S v u). auto.
  - apply joins_false in J. destruct J as [J1 J2].
    destruct (label_eqb u b && label_eqb v a) eqn:Q.
    { apply andb_true_iff in Q. destruct Q as [Q1 Q2]. destruct (label_eqb_spec u b); [|discriminate]. destruct (label_eqb_spec v a); [|discriminate]. subst. exfalso. apply J2; reflexivity. }
    destruct (label_eqb u a && label_eqb v b) eqn:Q'; auto.
    apply andb_true_iff in Q'. destruct Q' as [Q1 Q2]. destruct (label_eqb_spec u a); [|discriminate]. destruct (label_eqb_spec v b); [|discriminate]. subst. exfalso. apply J1; reflexivity.
Qed.
Lemma joins_sym u v e : joins u v e = joins v u e.
Proof. unfold joins. apply orb_comm. Qed.
Lemma put_uedge_sym h a b dd : sym h -> sym (put_uedge h a b dd).
Proof. intros S u v. rewrite !put_uedge_attrs by auto. rewrite (joins_sym v u), (S u v). auto. Qed.

Definition merge (o : option (list (string * aval))) (d : list (string * aval)) : option (list (string * aval)) :=
  Some (dupdate String.eqb (match o with Some x => x | None => [] end) d).
Lemma fold_uedges es : forall h u v, sym h ->
  edge_attrs (fold_left (fun h e => put_uedge h (fst (fst e)) (snd (fst e)) (snd e)) es h) u v =
  fold_left merge (map snd (filter (fun e => joins u v (fst e)) es)) (edge_attrs h u v).
Proof.
  induction es as [|[[a b] d] es IH]; intros h u v S; cbn [fold_left fst snd]; auto. rewrite IH by (apply put_uedge_sym; auto).
  rewrite put_uedge_attrs by auto. cbn [filter fst]. destruct (joins u v (a, b)); cbn [map snd fold_left]; auto.
Qed.

Lemma dset_present (h : graph) u s : In u (nodes h) -> nodes (dset label_eqb h u s) = nodes h. Proof. apply dset_nodes. Qed.
Lemma put_uedge_nodes h a b dd : In a (nodes h) -> In b (nodes h) -> nodes (put_uedge h a b dd) = nodes h.
Proof. intros A B. unfold put_uedge. cbv zeta. rewrite (add_node_present h a A), (add_node_present h b B). rewrite !dset_nodes; auto. rewrite dset_nodes; auto. Qed.
Lemma fold_unodes es : forall h, (forall e, In e es -> In (fst (fst e)) (nodes h) /\ In (snd (fst e)) (nodes h)) ->
  nodes (fold_left (fun h e => put_uedge h (fst (fst e)) (snd (fst e)) (snd e)) es h) = nodes h.
Proof.
  induction es as [|e es IH]; intros h H; cbn [fold_left]; auto.
  assert (X : nodes (put_uedge h (fst (fst e)) (snd (fst e)) (snd e)) = nodes h) by (apply put_uedge_nodes; apply H; left; auto).
  rewrite IH; auto. intros e' I. rewrite X. apply H. right; auto.
Qed.

Lemma start_attrs g u v : edge_attrs (fold_left add_node (nodes g) []) u v = None.
Proof. rewrite add_nodes_attrs. reflexivity. Qed.

(** The edges between two nodes in the order of the edge list. *)
Definition opt_list {A} (o : option A) : list A := match o with Some x => [x] | None => [] end.

Lemma row_filter (u v x : label) (s : list (label * list (string * aval))) : NoDup (dkeys s) ->
  map snd (filter (fun e => joins u v (fst e)) (map (fun va => (x, fst va, snd va)) s)) =
  if label_eqb x u then opt_list (dget label_eqb s v) else if label_eqb x v then opt_list (dget label_eqb s u) else [].
Proof.
  intros ND.
  assert (G : forall y : label, (forall z, joins u v (x, z) = label_eqb z y) ->
    map snd (filter (fun e => joins u v (fst e)) (map (fun va => (x, fst va, snd va)) s)) = opt_list (dget label_eqb s y)).
  { intros y Hy. induction s as [|[z a] s IH]; cbn [map filter fst snd dget]; auto. cbn in ND. apply NoDup_cons_iff in ND. destruct ND as [N ND].
    rewrite Hy. cbn [dget]. destruct (label_eqb_spec z y) as [->|Nz].
    - destruct (label_eqb_spec y y); [|congruence]. cbn [map snd opt_list]. f_equal. rewrite (IH ND).
      destruct (dget label_eqb s y) eqn:E; auto. exfalso. apply N. apply (dget_In _ label_eqb_spec) in E. apply in_map_iff. exists (y, l). auto.
    - destruct (label_eqb_spec y z); [congruence|]. apply (IH ND). }
  destruct (label_eqb_spec x u) as [->|Nu].
  - apply G. intros z. apply eq_true_iff_eq. rewrite joins_iff. destruct (label_eqb_spec z v) as [->|N]; split; intros H; auto; try discriminate.
    destruct H as [[= H]|[= H1 H2]]; congruence.
  - destruct (label_eqb_spec x v) as [->|Nv].
    + apply G. intros z. apply eq_true_iff_eq. rewrite joins_iff. destruct (label_eqb_spec z u) as [->|N]; split; intros H; auto; try discriminate.
      destruct H as [[= H]|[= H1]]; congruence.
    + assert (F : filter (fun e : label * label * list (string * aval) => joins u v (fst e)) (map (fun va => (x, fst va, snd va)) s) = []).
      { clear ND G. induction s as [|[z a] s IH]; cbn [map filter fst snd]; auto. destruct (joins u v (x, z)) eqn:J; auto. apply joins_iff in J.
        destruct J as [[= ? ?]|[= ? ?]]; congruence. }
      rewrite F. reflexivity.
Qed.

Lemma filter_flat {A B} (p : B -> bool) (f : A -> list B) l : filter p (flat_map f l) = flat_map (fun x => filter p (f x)) l.
Proof. induction l as [|x l IH]; cbn; auto. rewrite filter_app, IH. auto. Qed.
Lemma map_flat {A B C} (q : B -> C) (f : A -> list B) l : map q (flat_map f l) = flat_map (fun x => map q (f x)) l.
Proof. induction l as [|x l IH]; cbn; auto. rewrite map_app, IH. auto. Qed.

Definition row_part (u v : label) (us : label * list (label * list (string * aval))) :=
  if label_eqb (fst us) u then opt_list (dget label_eqb (snd us) v) else if label_eqb (fst us) v then opt_list (dget label_eqb (snd us) u) else [].

Lemma joined_rows g u v : wf g -> map snd (filter (fun e => joins u v (fst e)) (edges_data g)) = flat_map (row_part u v) g.
Proof.
  intros [_ W]. unfold edges_data. rewrite filter_flat, map_flat.
  assert (H : forall us, In us g -> NoDup (dkeys (snd us))) by (intros [x s] I; apply (W x s I)). clear W.
  induction g as [|[x s] g IH]; cbn [flat_map fst snd]; auto. rewrite IH by (intros; apply H; right; auto). f_equal.
  apply row_filter. apply (H (x, s)). left; auto.
Qed.

Lemma rows_none u v (g : graph) : ~ In u (dkeys g) -> ~ In v (dkeys g) -> flat_map (row_part u v) g = [].
Proof.
  induction g as [|[x s] g IH]; cbn; auto. intros A B. unfold row_part at 1. cbn [fst snd].
  destruct (label_eqb_spec x u) as [->|]; [tauto|]. destruct (label_eqb_spec x v) as [->|]; [tauto|]. cbn. apply IH; tauto.
Qed.

Lemma map_split {A B} (f : A -> B) l a b : map f l = a ++ b -> exists x y, l = x ++ y /\ map f x = a /\ map f y = b.
Proof.
  revert l. induction a as [|z a IH]; intros l E; [exists [], l; auto|]. destruct l as [|w l]; [discriminate|]. cbn in E. injection E as <- E.
  destruct (IH l E) as (x & y & -> & <- & <-). exists (w :: x), y. auto.
Qed.

Lemma joined_pair g u v : wf g -> before (nodes g) u v ->
  map snd (filter (fun e => joins u v (fst e)) (edges_data g)) = opt_list (edge_attrs g u v) ++ opt_list (edge_attrs g v u).
Proof.
  intros W (l1 & l2 & l3 & E). rewrite joined_rows by auto. unfold nodes, dkeys in E.
  pose proof (proj1 W) as ND. unfold nodes, dkeys in ND. rewrite E in ND.
  apply map_split in E. destruct E as (g1 & r & -> & E1 & E). destruct r as [|[x su] r]; [discriminate|]. cbn in E. injection E as -> E.
  apply map_split in E. destruct E as (g2 & r2 & -> & E2 & E). destruct r2 as [|[y sv] g3]; [discriminate|]. cbn in E. injection E as -> E3.
  subst l1 l2 l3. pose proof ND as ND0.
  assert (N1 : ~ In u (map fst g1) /\ ~ In v (map fst g1)).
  { split; intros I; apply in_split in I as (p & q & Q); rewrite Q in ND; rewrite <- app_assoc in ND; apply NoDup_remove_2 in ND; apply ND; rewrite !in_app_iff; cbn; right; right; rewrite ?in_app_iff; cbn; auto. }
  apply NoDup_remove in ND. destruct ND as [ND Nu]. rewrite !in_app_iff in Nu. cbn in Nu. rewrite app_assoc in ND. apply NoDup_remove in ND. destruct ND as [_ Nv]. rewrite !in_app_iff in Nv.
  assert (Huv : u <> v) by (intros ->; tauto).
  rewrite !flat_map_app. cbn [flat_map]. rewrite flat_map_app. cbn [flat_map].
  rewrite (rows_none u v g1), (rows_none u v g2), (rows_none u v g3) by (unfold dkeys; tauto).
  unfold row_part. cbn [fst snd]. destruct (label_eqb_spec u u); [|congruence]. destruct (label_eqb_spec v u); [congruence|]. destruct (label_eqb_spec v v); [|congruence].
  cbn [app]. rewrite app_nil_r.
  assert (Gu : succ_of (g1 ++ (u, su) :: g2 ++ (v, sv) :: g3) u = su).
  { unfold succ_of. rewrite (In_dget _ label_eqb_spec _ u su); auto; [apply W|]. apply in_app_iff. right; left; auto. }
  assert (Gv : succ_of (g1 ++ (u, su) :: g2 ++ (v, sv) :: g3) v = sv).
  { unfold succ_of. rewrite (In_dget _ label_eqb_spec _ v sv); auto; [apply W|]. apply in_app_iff. right; right. apply in_app_iff. right; left; auto. }
  unfold edge_attrs. rewrite Gu, Gv. reflexivity.
Qed.

Lemma joined_loop g u : wf g -> In u (nodes g) -> map snd (filter (fun e => joins u u (fst e)) (edges_data g)) = opt_list (edge_attrs g u u).
Proof.
  intros W I. rewrite joined_rows by auto. apply in_split in I. destruct I as (l1 & l2 & E). unfold nodes, dkeys in E.
  pose proof (proj1 W) as ND. unfold nodes, dkeys in ND. rewrite E in ND. apply NoDup_remove_2 in ND. rewrite in_app_iff in ND.
  apply map_split in E. destruct E as (g1 & r & -> & E1 & E). destruct r as [|[x su] r]; [discriminate|]. cbn in E. injection E as -> E. subst l1 l2.
  rewrite flat_map_app. cbn [flat_map]. rewrite (rows_none u u g1), (rows_none u u r) by (unfold dkeys; tauto). rewrite app_nil_r. cbn [app].
  unfold row_part. cbn [fst snd]. destruct (label_eqb_spec u u); [|congruence].
  assert (Gu : succ_of (g1 ++ (u, su) :: r) u = su).
  { unfold succ_of. rewrite (In_dget _ label_eqb_spec _ u su); auto; [apply W|]. apply in_app_iff. right; left; auto. }
  unfold edge_attrs. rewrite Gu. reflexivity.
Qed.

Lemma undirected_sym g : wf g -> sym (to_undirected g).
Proof.
  intros W. unfold to_undirected.
  assert (H : forall es h, sym h -> sym (fold_left (fun h e => put_uedge h (fst (fst e)) (snd (fst e)) (snd e)) es h)).
  { induction es as [|e es IH]; intros h S; cbn; auto. apply IH, put_uedge_sym, S. }
  apply H. intros u v. rewrite !start_attrs. auto.
Qed.

Lemma undirected_attrs g u v : wf g -> edge_attrs (to_undirected g) u v =
  fold_left merge (map snd (filter (fun e => joins u v (fst e)) (edges_data g))) None.
Proof. intros W. unfold to_undirected. rewrite fold_uedges; [rewrite start_attrs; auto|]. intros a b. rewrite !start_attrs. auto. Qed.

Lemma merge_none es : fold_left merge es None = None -> es = [].
Proof.
  destruct es as [|d es]; auto. intros H. exfalso. revert H. change (fold_left merge (d :: es) None) with (fold_left merge es (merge None d)).
  unfold merge at 2. generalize (dupdate String.eqb [] d). revert d. induction es as [|e es IH]; intros d x H; [discriminate|]. cbn in H. exact (IH d _ H).
Qed.

Theorem undirected g : reached g -> nodes (to_undirected g) = nodes g /\
  (forall u v k, attribute (to_undirected g) u v k = attribute (to_undirected g) v u k) /\
  (forall u v, has_edge (to_undirected g) u v <-> has_edge g u v \/ has_edge g v u) /\
  (forall u k, attribute (to_undirected g) u u k = attribute g u u k) /\
  (forall u v k, before (nodes g) u v -> attribute (to_undirected g) u v k =
     match attribute g v u k with Some x => Some x | None => attribute g u v k end).
Proof.
  intros R. pose proof (reached_wf g R) as W. pose proof (undirected_sym g W) as S.
  assert (K : forall u v d, edge_attrs g u v = Some d -> NoDup (dkeys d)).
  { intros u v d H. apply (edges_data_keys g W u v). apply edges_data_In; auto. }
  split. { unfold to_undirected. rewrite fold_unodes; [rewrite add_nodes_nodes; [reflexivity|apply W]|].
    intros [[a b] d] I. cbn [fst snd]. rewrite add_nodes_nodes by apply W. destruct (edges_data_keys g W a b d I) as (A & B & _). auto. }
  split. { intros u v k. unfold attribute. rewrite S. auto. }
  split. { intros u v. unfold has_edge at 1. rewrite undirected_attrs by auto. split.
    - intros (d & H). destruct (map snd (filter _ _)) as [|x l] eqn:E; [discriminate|].
      assert (I : In x (map snd (filter (fun e => joins u v (fst e)) (edges_data g)))) by (rewrite E; left; auto).
      apply in_map_iff in I. destruct I as ([uv a] & Q & I). cbn in Q. subst a. apply filter_In in I. destruct I as [I J]. cbn in J.
      apply joins_iff in J. destruct J as [J|J]; subst uv; [left|right]; exists x; apply edges_data_In; auto.
    - intros H. destruct (fold_left merge _ None) eqn:E; eauto. exfalso. apply merge_none in E.
      assert (I : exists d uv, In (uv, d) (edges_data g) /\ joins u v uv = true).
      { destruct H as [(d & H)|(d & H)]; exists d; [exists (u, v)|exists (v, u)]; (split; [apply edges_data_In; auto|apply joins_iff; auto]). }
      destruct I as (d & uv & I & J). assert (X : In d (map snd (filter (fun e => joins u v (fst e)) (edges_data g)))).
      { apply in_map_iff. exists (uv, d). split; auto. apply filter_In. auto. }
      rewrite E in X. destruct X. }
  split.
  - intros u k. unfold attribute. rewrite undirected_attrs by auto. destruct (in_dec (fun a b => ltac:(destruct (label_eqb_spec a b); auto) : {a = b} + {a <> b}) u (nodes g)) as [I|I].
    + rewrite joined_loop by auto. destruct (edge_attrs g u u) as [d|] eqn:E; cbn; auto. rewrite get_update by (eapply K; eauto). destruct (dget String.eqb d k); auto.
    + destruct (edge_attrs g u u) as [d|] eqn:E. { exfalso. apply I. apply (edges_data_keys g W u u d). apply edges_data_In; auto. }
      destruct (fold_left merge _ None) as [d|] eqn:E2; auto. exfalso.
      destruct (map snd (filter _ _)) as [|x l] eqn:Q; [discriminate|].
      assert (J : In x (map snd (filter (fun e => joins u u (fst e)) (edges_data g)))) by (rewrite Q; left; auto).
      apply in_map_iff in J. destruct J as ([uv a] & Q2 & J). cbn in Q2. subst a. apply filter_In in J. destruct J as [J J2]. cbn in J2. apply joins_iff in J2.
      assert (uv = (u, u)) as -> by tauto. apply I. apply (edges_data_keys g W u u x J).
  - intros u v k B. unfold attribute. rewrite undirected_attrs, joined_pair by auto.
    destruct (edge_attrs g u v) as [a|] eqn:Ea, (edge_attrs g v u) as [b|] eqn:Eb; cbn; auto.
    + rewrite get_update by (eapply K; eauto). destruct (dget String.eqb b k); auto. rewrite get_update by (eapply K; eauto). destruct (dget String.eqb a k); auto.
    + rewrite get_update by (eapply K; eauto). destruct (dget String.eqb a k); auto.
    + rewrite get_update by (eapply K; eauto). destruct (dget String.eqb b k); auto.
Qed.
