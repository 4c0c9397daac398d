(** * FigProofs: what plot_structure and plot_dag hand to pygraphviz. *)
From Coq Require Import List Bool Arith ZArith Lia String QArith Qcanon.
From Verif Require Import Base Names Digraph SmModel SmProofs NetModel PlotModel PlotAttrs FigModel.
Import ListNotations.
Local Open Scope nat_scope.
Local Open Scope string_scope.
Local Open Scope list_scope.

(** ** Specification *)

(** Edges connect nodes of the graph. *)
Definition closed (g : pgraph) : Prop :=
  forall u v, In (u, v) (map fst (pg_edges g)) -> In u (map fst (pg_nodes g)) /\ In v (map fst (pg_nodes g)).

(** The edge has this absolute weight. *)
Definition strength (h : heap) (g : pgraph) (e : label * label) (w : Qc) : Prop :=
  exists a x, In (e, a) (pg_edges g) /\ attr (hread h a) "weight" = Some (ANum x) /\ w = Qcabs x.
Definition all_weighted (h : heap) (g : pgraph) : Prop := forall e, In e (map fst (pg_edges g)) -> exists w, strength h g e w.

(** [D] is what is left of the edges when the weakest are removed until there is no cycle. *)
Record weakest_removed (h : heap) (g : pgraph) (D : list (label * label)) : Prop := {
  wr_part : forall e, In e D -> In e (map fst (pg_edges g));
  wr_acyclic : acyclic D;
  wr_weak : forall e f w x, In e (map fst (pg_edges g)) -> ~ In e D -> In f D -> strength h g e w -> strength h g f x -> (w <= x)%Qc;
  wr_needed : D = map fst (pg_edges g) \/
    exists e, In e (map fst (pg_edges g)) /\ ~ In e D /\ ~ acyclic (e :: D) /\
      forall f w x, In f (map fst (pg_edges g)) -> ~ In f D -> strength h g f w -> strength h g e x -> (w <= x)%Qc }.

(** ** The graph seen by networkx *)

Lemma view_nodes h g : nodes (view h g) = map fst (pg_nodes g).
Proof. unfold nodes, dkeys, view. rewrite map_map. auto. Qed.

Lemma view_data h g e d : closed g -> In (e, d) (edges_data (view h g)) <-> exists a, In (e, a) (pg_edges g) /\ d = hread h a.
Proof.
  intros C. unfold edges_data, view. rewrite in_flat_map. split.
  - intros ([u s] & H & I). apply in_map_iff in H as ([n b] & E & H). cbn [fst snd] in *. injection E as <- <-.
    apply in_map_iff in I as ([v d'] & E & I). cbn [fst snd] in *. injection E as <- <-.
    apply in_flat_map in I as ([[x y] a] & I & J). cbn [fst snd] in J. destruct (label_eqb_spec x n) as [->|]; [|destruct J].
    destruct J as [E|[]]. injection E as <- <-. eauto.
  - intros (a & I & ->). destruct e as [u v]. destruct (C u v) as [Cu _]; [apply (in_map fst) in I; auto|].
    apply in_map_iff in Cu as ([n b] & E & Hn). cbn in E. subst n.
    eexists (u, _). split; [apply in_map_iff; exists (u, b); split; [reflexivity|auto]|]. cbn [fst snd]. apply in_map_iff. exists (v, hread h a). split; auto.
    apply in_flat_map. exists (u, v, a). split; auto. cbn [fst snd]. destruct (label_eqb_spec u u); [left; auto|congruence].
Qed.

Lemma view_edges h g e : closed g -> In e (edges (view h g)) <-> In e (map fst (pg_edges g)).
Proof.
  intros C. unfold edges. rewrite !in_map_iff. split.
  - intros ([f d] & <- & I). apply (view_data h g _ _ C) in I as (a & I & _). exists (f, a). auto.
  - intros ([f a] & <- & I). exists (f, hread h a). split; auto. apply view_data; eauto.
Qed.

Lemma view_wf h g : separate h g -> closed g -> (forall e a, In (e, a) (pg_edges g) -> NoDup (map fst (hread h a))) -> wf (view h g).
Proof.
  intros S C K. split; [rewrite view_nodes; apply S|]. intros u s I. apply in_map_iff in I as ([n b] & E & I). cbn [fst] in E. injection E as <- <-. split.
  - pose proof (sep_edges _ _ S) as N. clear - N. unfold dkeys. induction (pg_edges g) as [|[[x y] a] l IH]; cbn; [constructor|]. cbn in N. inversion N as [|? ? N1 N2]; subst.
    rewrite map_app. destruct (label_eqb_spec x n) as [->|]; cbn; auto. constructor; auto. intros J. apply N1. apply in_map_iff in J as ([y' d] & E & J). cbn in E. subst y'.
    apply in_flat_map in J as ([[x z] a'] & J & F). cbn in F. destruct (label_eqb_spec x n) as [->|]; [|destruct F]. destruct F as [F|[]]. injection F as <- _. apply (in_map fst) in J. auto.
  - intros v d J. apply in_flat_map in J as ([[x y] a] & J & F). cbn in F. destruct (label_eqb_spec x n) as [->|]; [|destruct F]. destruct F as [F|[]]. injection F as <- <-.
    rewrite view_nodes. split; [|apply (K _ _ J)]. apply (C n y). apply (in_map fst) in J. auto.
Qed.

Lemma edge_addr g h e a b : separate h g -> In (e, a) (pg_edges g) -> In (e, b) (pg_edges g) -> a = b.
Proof.
  intros S. pose proof (sep_edges _ _ S) as N. clear S. induction (pg_edges g) as [|[f c] l IH]; cbn in *; [tauto|]. inversion N; subst. intros [E|I] [F|J]; auto; try congruence.
  - injection E as -> ->. apply (in_map fst) in J. contradiction.
  - injection F as -> ->. apply (in_map fst) in I. contradiction.
Qed.

Lemma strength_awt h g e a w : separate h g -> In (e, a) (pg_edges g) -> strength h g e w -> awt (e, hread h a) = w.
Proof. intros S I (b & x & J & A & ->). rewrite (edge_addr _ _ _ _ _ S I J). unfold awt, wt, attr in *. cbn. rewrite A. auto. Qed.

Lemma till_dag_pg_spec h g : separate h g -> closed g -> (forall e a, In (e, a) (pg_edges g) -> NoDup (map fst (hread h a))) -> all_weighted h g ->
  exists g', till_dag_pg h g = (g', Ok tt) /\ pg_nodes g' = pg_nodes g /\ (exists keep, pg_edges g' = filter keep (pg_edges g)) /\ weakest_removed h g (map fst (pg_edges g')).
Proof.
  intros S C K W. pose proof (view_wf h g S C K) as V.
  assert (N : numeric (view h g)).
  { intros u v d I. apply view_data in I as (a & I & ->); auto. destruct (W (u, v)) as (w & b & x & J & A & _); [apply (in_map fst) in I; auto|]. exists x. rewrite (edge_addr _ _ _ _ _ S I J). exact A. }
  destruct (threshold_till_dag_spec _ V N) as (g' & E & [_ _ (keep & T3) T4 T5 T6]). unfold till_dag_pg. rewrite E.
  eexists. split; [reflexivity|]. cbn [pg_nodes pg_edges]. split; auto. split; [eauto|].
  assert (M : forall e, In e (map fst (filter (fun ea => existsb (edge_eqb (fst ea)) (edges g')) (pg_edges g))) <-> In e (edges g')).
  { intros e. rewrite in_map_iff. split.
    - intros ([f a] & <- & I). apply filter_In in I as [_ I]. cbn [fst] in *. apply existsb_exists in I as (x & I & Q). destruct (edge_eqb_spec f x); [subst; auto|discriminate].
    - intros I. assert (J : In e (edges (view h g))). { unfold edges in *. rewrite T3 in I. apply in_map_iff in I as (x & <- & I). apply filter_In in I as [I _]. apply in_map; auto. }
      apply view_edges in J; auto. apply in_map_iff in J as ([f a] & <- & J). exists (f, a). split; auto. apply filter_In. split; auto. apply existsb_exists. exists f. split; auto. cbn. destruct (edge_eqb_spec f f); congruence. }
  set (D := map fst (filter (fun ea => existsb (edge_eqb (fst ea)) (edges g')) (pg_edges g))) in *.
  assert (In' : forall e a, In (e, a) (pg_edges g) -> (In e (edges g') <-> In (e, hread h a) (edges_data g'))).
  { intros e a I. unfold edges. rewrite in_map_iff. split; [|intros J; exists (e, hread h a); auto]. intros ([f d] & Q & J). cbn in Q. subst f.
    assert (X : In (e, d) (edges_data (view h g))) by (rewrite T3 in J; apply filter_In in J; tauto). apply view_data in X as (b & X & ->); auto. rewrite (edge_addr _ _ _ _ _ S I X). auto. }
  assert (Pin : forall L L' : list (label * label), (forall e, In e L -> In e L') -> acyclic L' -> acyclic L).
  { intros L L' Q Ac z P. apply (Ac z). eapply path_incl; [|exact P]. auto. }
  constructor.
  - intros e I. apply M in I. unfold edges in I. rewrite T3 in I. apply in_map_iff in I as (x & <- & I). apply filter_In in I as [I _]. apply (view_edges h g); auto. apply in_map; auto.
  - eapply Pin; [|exact T4]. intros e I. apply M; auto.
  - intros e f w x He Hn Hf We Wf. apply in_map_iff in He as ([e' a] & Q & He). cbn in Q. subst e'. apply M in Hf. assert (~ In e (edges g')) by (rewrite <- M; auto).
    assert (If : exists b, In (f, b) (pg_edges g)) by (destruct Wf as (b & ? & ? & _); eauto). destruct If as (b & If).
    rewrite <- (strength_awt _ _ _ _ _ S He We), <- (strength_awt _ _ _ _ _ S If Wf). apply T5; [apply view_data; eauto|rewrite <- In'; auto|apply In'; auto].
  - destruct T6 as [->|([e d] & He & Hn & Mx & Cy)].
    + left. unfold D. f_equal. apply filter_all. intros [f a] I. apply existsb_exists. exists f. split; [apply view_edges; auto; apply (in_map fst) in I; auto|]. cbn. destruct (edge_eqb_spec f f); congruence.
    + right. apply view_data in He as (a & He & ->); auto. exists e. cbn [fst] in Cy. split; [apply (in_map fst) in He; auto|]. assert (Ne : ~ In e (edges g')) by (rewrite (In' _ _ He); auto).
      split; [rewrite M; auto|]. split.
      * intros Ac. apply Cy. eapply Pin; [|exact Ac]. intros x [<-|I]; [left; auto|right; apply M; auto].
      * intros f w x Hf Nf Wf We. apply in_map_iff in Hf as ([f' b] & Q & Hf). cbn in Q. subst f'. rewrite <- (strength_awt _ _ _ _ _ S He We), <- (strength_awt _ _ _ _ _ S Hf Wf).
        apply Mx; [apply view_data; eauto|]. rewrite <- In'; auto. rewrite <- M. auto.
Qed.

(** What the figure must be: the nodes of [g] and the edges [E], decorated.  [h'] is the heap afterwards. *)
Record decorated (ns es : nat) (h : heap) (g : pgraph) (E : list (label * label)) (prog : string) (all_node all_edge : list (string * aval))
  (node : list (label * list (string * aval))) (edge : list (label * label * list (string * aval))) (graph : list (string * aval)) (h' : heap) (f : figure) : Prop := {
  dc_kept : firstn (List.length h) h' = h;
  dc_nodes : map fst (pg_nodes (fig_graph f)) = map fst (pg_nodes g);
  dc_edges : map fst (pg_edges (fig_graph f)) = E;
  dc_own : forall a, In a (map snd (pg_nodes (fig_graph f)) ++ map snd (pg_edges (fig_graph f))) -> List.length h <= a;
  dc_node : forall n a0 a k, In (n, a0) (pg_nodes g) -> In (n, a) (pg_nodes (fig_graph f)) ->
    attr (hread h' a) k = first_of [attr_of label_eqb node n k; attr all_node k; attr (hread h ns) k; (if String.eqb k "label" then Some (label_text n) else None); attr (hread h a0) k];
  dc_edge : forall e a0 a k, In (e, a0) (pg_edges g) -> In (e, a) (pg_edges (fig_graph f)) ->
    attr (hread h' a) k = first_of [attr_of edge_eqb edge e k; attr all_edge k; attr (hread h es) k; attr (hread h a0) k];
  dc_graph : forall k, attr (fig_attrs f) k = first_of [attr graph k; attr graph_style k];
  dc_prog : fig_prog f = prog }.

(** Arguments that are dictionaries: no key twice. *)
Definition dicts (l : list (list (string * aval))) : Prop := forall d, In d l -> NoDup (map fst d).
Definition fine_args (all_node all_edge : list (string * aval)) (node : list (label * list (string * aval))) (edge : list (label * label * list (string * aval))) (graph : list (string * aval)) : Prop :=
  dicts (all_node :: all_edge :: graph :: map snd node ++ map snd edge) /\ NoDup (map fst node) /\ NoDup (map fst edge).

Theorem plot_structure_spec ns es h sm prog all_node all_edge node edge graph :
  separate h sm -> ns < List.length h -> es < List.length h -> dicts [hread h ns; hread h es] -> fine_args all_node all_edge node edge graph ->
  exists h' f, plot_structure ns es h sm prog all_node all_edge node edge graph = (h', f) /\
    decorated ns es h sm (map fst (pg_edges sm)) prog all_node all_edge node edge graph h' f.
Proof.
  intros S Hn He Hd (Ha & Nn & Ne).
  destruct (attributes_precedence ns es h sm all_node all_edge node edge S Hn He) as (h' & g & A & B & C & D & F & G & H); auto.
  { intros d I. cbn [app In] in I. destruct I as [<-|[<-|[<-|[<-|I]]]]; [apply Hd|apply Hd|apply Ha|apply Ha|apply Ha]; cbn; auto. }
  unfold plot_structure. rewrite A. eexists _, _. split; [reflexivity|]. constructor; cbn [fig_graph fig_attrs fig_prog]; auto.
  intros k. rewrite attr_dupdate by (apply Ha; cbn; auto). unfold first_of. destruct (attr graph k); auto. destruct (attr graph_style k); auto.
Qed.

(** The copy that plot_dag makes. *)
Lemma copy_names h sm : map fst (pg_nodes (snd (deepcopy h sm))) = map fst (pg_nodes sm) /\ map fst (pg_edges (snd (deepcopy h sm))) = map fst (pg_edges sm).
Proof. cbn. rewrite !map_map. auto. Qed.

Lemma copy_read h a : hread (h ++ h) (List.length h + a) = hread h a.
Proof. unfold hread. rewrite app_nth2 by lia. f_equal. lia. Qed.

Lemma copy_separate h sm : separate h sm -> separate (h ++ h) (snd (deepcopy h sm)).
Proof.
  intros S. destruct (copy_names h sm) as [A B]. constructor.
  - rewrite A. apply S.
  - rewrite B. apply S.
  - cbn. rewrite !map_map. cbn. rewrite <- !(map_map snd (fun a => List.length h + a)), <- map_app. apply FinFun.Injective_map_NoDup; [intros x y E; lia|apply S].
  - cbn. rewrite !map_map. cbn. rewrite <- !(map_map snd (fun a => List.length h + a)), <- map_app. intros a I. apply in_map_iff in I as (b & <- & I). apply (sep_old _ _ S) in I. rewrite app_length. lia.
Qed.

Lemma copy_edge h sm e a : In (e, a) (pg_edges (snd (deepcopy h sm))) <-> exists b, In (e, b) (pg_edges sm) /\ a = List.length h + b.
Proof. cbn. rewrite in_map_iff. split; [intros ([f b] & E & I); injection E as <- <-; eauto|intros (b & I & ->); exists (e, b); auto]. Qed.
Lemma copy_node h sm n a : In (n, a) (pg_nodes (snd (deepcopy h sm))) <-> exists b, In (n, b) (pg_nodes sm) /\ a = List.length h + b.
Proof. cbn. rewrite in_map_iff. split; [intros ([f b] & E & I); injection E as <- <-; eauto|intros (b & I & ->); exists (n, b); auto]. Qed.

Lemma copy_strength h sm e w : strength (h ++ h) (snd (deepcopy h sm)) e w <-> strength h sm e w.
Proof.
  unfold strength. split.
  - intros (a & x & I & A & E). apply copy_edge in I as (b & I & ->). rewrite copy_read in A. eauto.
  - intros (b & x & I & A & E). exists (List.length h + b), x. split; [apply copy_edge; eauto|]. rewrite copy_read. auto.
Qed.

Lemma filtered_separate h g g' keep : separate h g -> pg_nodes g' = pg_nodes g -> pg_edges g' = filter keep (pg_edges g) -> separate h g'.
Proof.
  intros [A B C D] E F. assert (Sub : forall (X : Type) (fn : (label * label * nat) -> X) l, NoDup (map fn l) -> NoDup (map fn (filter keep l))).
  { intros X fn l. induction l as [|y l IH]; cbn; auto. intros N. inversion N; subst. destruct (keep y); cbn; auto. constructor; auto. intros I. apply H1. apply in_map_iff in I as (z & Q & I). apply filter_In in I as [I _]. rewrite <- Q. apply in_map; auto. }
  assert (Inc : forall a, In a (map snd (filter keep (pg_edges g))) -> In a (map snd (pg_edges g))).
  { intros a I. apply in_map_iff in I as (z & Q & I). apply filter_In in I as [I _]. rewrite <- Q. apply in_map; auto. }
  constructor; rewrite ?E, ?F; auto.
  - clear - C Sub Inc. revert C. generalize (map snd (pg_nodes g)) as l. induction l as [|x l IH]; cbn; [apply Sub|]. intros N. inversion N; subst. constructor; auto. intros I. apply H1. apply in_or_app. apply in_app_or in I as [I|I]; auto.
  - intros a I. apply D. apply in_or_app. apply in_app_or in I as [I|I]; auto.
Qed.

Lemma firstn_twice {A} (h h' : list A) : firstn (List.length (h ++ h)) h' = h ++ h -> firstn (List.length h) h' = h.
Proof.
  intros E. rewrite app_length in E. assert (F : firstn (List.length h) (firstn (List.length h + List.length h) h') = firstn (List.length h) (h ++ h)) by (rewrite E; auto).
  rewrite firstn_firstn in F. replace (Nat.min (List.length h) (List.length h + List.length h)) with (List.length h) in F by lia. rewrite F, firstn_app, Nat.sub_diag, firstn_all, firstn_O, app_nil_r. auto.
Qed.

(** ** plot_dag *)

(** The arguments of plot_structure that plot_dag uses. *)
Definition effective (nw ew : nat) (h : heap) (kw : option kwargs) : kwargs :=
  let default := mkKw None (Some (hread h nw)) (Some (hread h ew)) None None (Some [("scale", AStr "0.5")]) false in
  match kw with Some k => if kw_truthy k then k else default | None => default end.
Definition chosen_prog (k : kwargs) : string := match kw_prog k with Some p => p | None => "neato" end.
Definition way (use_mpl own_ax : bool) : shown := if use_mpl then (if own_ax then OnAxes else NewFigure) else Image.

(** All graphs that existed before are as they were. *)
Definition graphs_kept (gs gs' : list pgraph) : Prop := firstn (List.length gs) gs' = gs.

Lemma kept_app gs g : graphs_kept gs (gs ++ [g]).
Proof. unfold graphs_kept. rewrite firstn_app, Nat.sub_diag, firstn_all, firstn_O, app_nil_r. auto. Qed.
Lemma gread_last gs g : gread (gs ++ [g]) (List.length gs) = g.
Proof. unfold gread. rewrite app_nth2, Nat.sub_diag by lia. auto. Qed.
Lemma gset_last gs g g' : gset (gs ++ [g]) (List.length gs) g' = gs ++ [g'].
Proof. unfold gset. rewrite firstn_app, Nat.sub_diag, firstn_all, firstn_O, app_nil_r, skipn_all2; auto. rewrite app_length. cbn. lia. Qed.

Section PlotDag.
  Context (ns es nw ew : nat) (h : heap) (gs : list pgraph) (self : nat) (sm : pgraph) (SM : gread gs self = sm) (SEP : separate h sm) (C : closed sm).
  Context (Hns : ns < List.length h) (Hes : es < List.length h) (Hnw : nw < List.length h) (Hew : ew < List.length h).
  Context (Hd : dicts [hread h ns; hread h es]) (He : forall e a, In (e, a) (pg_edges sm) -> NoDup (map fst (hread h a))).

  Lemma copy_closed : closed (snd (deepcopy h sm)).
  Proof using C. destruct (copy_names h sm) as [A B]. intros u v I. rewrite A. rewrite B in I. auto. Qed.

  Lemma drawn_part g1 keep kw mpl own k : k = effective nw ew h kw -> kw_other k = false ->
    pg_nodes g1 = pg_nodes (snd (deepcopy h sm)) -> pg_edges g1 = filter keep (pg_edges (snd (deepcopy h sm))) ->
    fine_args (or_empty (kw_all_node k)) (or_empty (kw_all_edge k)) (or_empty (kw_node k)) (or_empty (kw_edge k)) (or_empty (kw_graph k)) ->
    forall enforce : bool, (if enforce then till_dag_pg (h ++ h) (snd (deepcopy h sm)) else (snd (deepcopy h sm), Ok tt)) = (g1, Ok tt) ->
    exists h' gs' f, plot_dag ns es nw ew h gs (Some self) enforce kw mpl own = (h', gs', Ok (mkPic f (chosen_prog k) (way mpl own))) /\ graphs_kept gs gs' /\
      decorated ns es h sm (map fst (pg_edges g1)) (chosen_prog k) (or_empty (kw_all_node k)) (or_empty (kw_all_edge k)) (or_empty (kw_node k)) (or_empty (kw_edge k)) (or_empty (kw_graph k)) h' f.
  Proof using SM SEP Hns Hes Hnw Hew Hd.
    intros Ek Ko En Ee Fa enforce Eg. pose proof (filtered_separate _ _ _ _ (copy_separate h sm SEP) En Ee) as S1.
    destruct (plot_structure_spec ns es (h ++ h) g1 (chosen_prog k) (or_empty (kw_all_node k)) (or_empty (kw_all_edge k)) (or_empty (kw_node k)) (or_empty (kw_edge k)) (or_empty (kw_graph k)) S1) as (h' & f & P & D); auto.
    1, 2: rewrite app_length; lia.
    { rewrite !hread_app_l by auto. exact Hd. }
    exists h', (gs ++ [g1]), f. split; [|split; [apply kept_app|]].
    - unfold plot_dag. rewrite SM. destruct (deepcopy h sm) as [hc g] eqn:Ec. assert (hc = h ++ h) by (unfold deepcopy in Ec; congruence). subst hc. cbn [snd] in Eg.
      assert (Q : (if enforce then (let (g', r) := till_dag_pg (h ++ h) (gread (gs ++ [g]) (List.length gs)) in (gset (gs ++ [g]) (List.length gs) g', r)) else (gs ++ [g], Ok tt)) = (gs ++ [g1], Ok tt)).
      { rewrite gread_last. destruct enforce; [rewrite Eg, gset_last; auto|]. injection Eg as ->. auto. }
      cbv zeta. rewrite Q, gread_last.
      unfold effective in Ek. rewrite <- (hread_app_l h h nw), <- (hread_app_l h h ew) in Ek by auto. cbv zeta in Ek. rewrite <- Ek. rewrite Ko. fold (chosen_prog k). rewrite P. reflexivity.
    - destruct D as [D1 D2 D3 D4 D5 D6 D7 D8]. rewrite En in D2. destruct (copy_names h sm) as [A B]. rewrite A in D2. constructor; auto.
      + apply firstn_twice; auto.
      + intros a I. apply D4 in I. rewrite app_length in I. lia.
      + intros n a0 a q I J. rewrite (D5 n (List.length h + a0) a q); auto; [|rewrite En; apply copy_node; eauto]. rewrite copy_read, hread_app_l by auto. auto.
      + intros e a0 a q I J. rewrite (D6 e (List.length h + a0) a q); auto.
        * rewrite copy_read, hread_app_l by auto. auto.
        * apply (in_map fst) in J. rewrite D3 in J. apply in_map_iff in J as ([e' b] & Q & J). cbn in Q. subst e'. assert (X : In (e, b) (pg_edges (snd (deepcopy h sm)))) by (rewrite Ee in J; apply filter_In in J; tauto).
          apply copy_edge in X as (c & X & ->). rewrite <- (edge_addr _ _ _ _ _ SEP I X) in J. auto.
  Qed.

  Theorem plot_plain kw mpl own k : k = effective nw ew h kw -> kw_other k = false ->
    fine_args (or_empty (kw_all_node k)) (or_empty (kw_all_edge k)) (or_empty (kw_node k)) (or_empty (kw_edge k)) (or_empty (kw_graph k)) ->
    exists h' gs' f, plot_dag ns es nw ew h gs (Some self) false kw mpl own = (h', gs', Ok (mkPic f (chosen_prog k) (way mpl own))) /\ graphs_kept gs gs' /\
      decorated ns es h sm (map fst (pg_edges sm)) (chosen_prog k) (or_empty (kw_all_node k)) (or_empty (kw_all_edge k)) (or_empty (kw_node k)) (or_empty (kw_edge k)) (or_empty (kw_graph k)) h' f.
  Proof using SM SEP Hns Hes Hnw Hew Hd.
    intros Ek Ko Fa. rewrite <- (proj2 (copy_names h sm)). apply (drawn_part (snd (deepcopy h sm)) (fun _ : label * label * nat => true)); auto. symmetry. apply filter_all. auto.
  Qed.

  Theorem plot_enforced kw mpl own k : all_weighted h sm -> k = effective nw ew h kw -> kw_other k = false ->
    fine_args (or_empty (kw_all_node k)) (or_empty (kw_all_edge k)) (or_empty (kw_node k)) (or_empty (kw_edge k)) (or_empty (kw_graph k)) ->
    exists D h' gs' f, plot_dag ns es nw ew h gs (Some self) true kw mpl own = (h', gs', Ok (mkPic f (chosen_prog k) (way mpl own))) /\ graphs_kept gs gs' /\ weakest_removed h sm D /\
      decorated ns es h sm D (chosen_prog k) (or_empty (kw_all_node k)) (or_empty (kw_all_edge k)) (or_empty (kw_node k)) (or_empty (kw_edge k)) (or_empty (kw_graph k)) h' f.
  Proof using SM SEP C Hns Hes Hnw Hew Hd He.
    intros W Ek Ko Fa. destruct (till_dag_pg_spec (h ++ h) (snd (deepcopy h sm)) (copy_separate h sm SEP) copy_closed) as (g1 & E & En & (keep & Ee) & R).
    { intros e a I. apply copy_edge in I as (b & I & ->). rewrite copy_read. eauto. }
    { intros e I. rewrite (proj2 (copy_names h sm)) in I. destruct (W e I) as (w & Hw). exists w. apply copy_strength. auto. }
    destruct (drawn_part g1 keep kw mpl own k Ek Ko En Ee Fa true E) as (h' & gs' & f & P & G & D). exists (map fst (pg_edges g1)), h', gs', f. split; auto. split; auto. split; auto.
    destruct R as [R1 R2 R3 R4]. rewrite (proj2 (copy_names h sm)) in *. constructor; auto.
    - intros e x w y I J K X Y. apply (R3 e x w y); auto; apply copy_strength; auto.
    - destruct R4 as [R4|(e & I & J & K & M)]; [left; auto|right]. exists e. repeat split; auto. intros x w y X Y Z T. apply (M x w y); auto; apply copy_strength; auto.
  Qed.
End PlotDag.
