(** * Property C131: the figures of plot_structure and plot_dag. *)
From Coq Require Import List Bool Arith ZArith Lia String QArith Qcanon.
From Verif Require Import Base Names Digraph SmModel NetModel PlotModel PlotAttrs FigModel FigProofs PropsPlot.
Import ListNotations.
Local Open Scope nat_scope.
Local Open Scope string_scope.
Local Open Scope list_scope.

(** plot_structure hands to pygraphviz the nodes and edges of the structure, decorated: the default attributes are
    overridden by those for all nodes or edges and these by those for single ones; graph_attributes override
    GRAPH_STYLE; the layout program is the one asked for.  Everything that existed before is as it was. *)
Theorem C131_structure ns es h sm prog all_node all_edge node edge graph :
  separate h sm -> (ns < List.length h)%nat -> (es < List.length h)%nat -> dicts [hread h ns; hread h es] -> fine_args all_node all_edge node edge graph ->
  exists h' f, plot_structure ns es h sm prog all_node all_edge node edge graph = (h', f) /\
    decorated ns es h sm (map fst (pg_edges sm)) prog all_node all_edge node edge graph h' f.
Proof. exact (plot_structure_spec ns es h sm prog all_node all_edge node edge graph). Qed.
Print Assumptions C131_structure.

(** What the caller of plot_dag asks for: without keywords the weak styles, scale 0.5 and neato; with any keyword
    exactly the keywords (None for those that are not given). *)
Definition no_keyword : kwargs := mkKw None None None None None None false.
Inductive asks (weak_node weak_edge : list (string * aval)) : option kwargs -> string -> list (string * aval) -> list (string * aval) ->
  list (label * list (string * aval)) -> list (label * label * list (string * aval)) -> list (string * aval) -> Prop :=
| asks_default kw : kw = None \/ kw = Some no_keyword -> asks weak_node weak_edge kw "neato" weak_node weak_edge [] [] [("scale", AStr "0.5")]
| asks_given k prog an ae n e g : k <> no_keyword -> kw_other k = false ->
    (kw_prog k = Some prog \/ kw_prog k = None /\ prog = "neato") ->
    (kw_all_node k = Some an \/ kw_all_node k = None /\ an = []) -> (kw_all_edge k = Some ae \/ kw_all_edge k = None /\ ae = []) ->
    (kw_node k = Some n \/ kw_node k = None /\ n = []) -> (kw_edge k = Some e \/ kw_edge k = None /\ e = []) ->
    (kw_graph k = Some g \/ kw_graph k = None /\ g = []) ->
    asks weak_node weak_edge (Some k) prog an ae n e g.

Lemma asks_effective nw ew h kw prog an ae n e g : asks (hread h nw) (hread h ew) kw prog an ae n e g ->
  let k := effective nw ew h kw in
  kw_other k = false /\ chosen_prog k = prog /\ or_empty (kw_all_node k) = an /\ or_empty (kw_all_edge k) = ae /\
  or_empty (kw_node k) = n /\ or_empty (kw_edge k) = e /\ or_empty (kw_graph k) = g.
Proof.
  intros A. destruct A as [kw [->| ->]|k prog an ae n e g N O P A1 A2 A3 A4 A5]; cbn zeta; [cbn; repeat split; auto|cbn; repeat split; auto|].
  assert (T : effective nw ew h (Some k) = k).
  { unfold effective. destruct k as [[|] [|] [|] [|] [|] [|] [|]]; cbn [kw_truthy]; auto. exfalso. apply N. reflexivity. }
  rewrite T. unfold chosen_prog, or_empty. split; auto.
  destruct P as [->|[-> ->]], A1 as [->|[-> ->]], A2 as [->|[-> ->]], A3 as [->|[-> ->]], A4 as [->|[-> ->]], A5 as [->|[-> ->]]; repeat split; auto.
Qed.

(** How the picture is returned. *)
Definition returned (use_mpl own_ax : bool) (s : shown) : Prop :=
  match s with Image => use_mpl = false | OnAxes => use_mpl = true /\ own_ax = true | NewFigure => use_mpl = true /\ own_ax = false end.

Lemma way_returned mpl own : returned mpl own (way mpl own).
Proof. destruct mpl, own; cbn; auto. Qed.

(** plot_dag draws all nodes and edges of the fitted graph ... *)
Theorem C131_plot ns es nw ew h gs self sm kw mpl own prog all_node all_edge node edge graph :
  gread gs self = sm -> separate h sm -> (ns < List.length h)%nat -> (es < List.length h)%nat -> (nw < List.length h)%nat -> (ew < List.length h)%nat ->
  dicts [hread h ns; hread h es] -> asks (hread h nw) (hread h ew) kw prog all_node all_edge node edge graph -> fine_args all_node all_edge node edge graph ->
  exists h' gs' f s, plot_dag ns es nw ew h gs (Some self) false kw mpl own = (h', gs', Ok (mkPic f prog s)) /\ graphs_kept gs gs' /\ returned mpl own s /\
    decorated ns es h sm (map fst (pg_edges sm)) prog all_node all_edge node edge graph h' f.
Proof.
  intros SM S H1 H2 H3 H4 D A F. apply asks_effective in A as (A0 & <- & <- & <- & <- & <- & <-).
  destruct (plot_plain ns es nw ew h gs self sm SM S H1 H2 H3 H4 D kw mpl own _ eq_refl A0 F) as (h' & gs' & f & P & G & Q). exists h', gs', f, (way mpl own). repeat (split; auto). apply way_returned.
Qed.
Print Assumptions C131_plot.

(** ... and with enforce_dag an acyclic part: the weakest edges are left out, no more than needed, and the graph of
    the estimator keeps them. *)
Theorem C131_enforced ns es nw ew h gs self sm kw mpl own prog all_node all_edge node edge graph :
  gread gs self = sm -> separate h sm -> closed sm -> (forall e a, In (e, a) (pg_edges sm) -> NoDup (map fst (hread h a))) -> all_weighted h sm ->
  (ns < List.length h)%nat -> (es < List.length h)%nat -> (nw < List.length h)%nat -> (ew < List.length h)%nat ->
  dicts [hread h ns; hread h es] -> asks (hread h nw) (hread h ew) kw prog all_node all_edge node edge graph -> fine_args all_node all_edge node edge graph ->
  exists E h' gs' f s, plot_dag ns es nw ew h gs (Some self) true kw mpl own = (h', gs', Ok (mkPic f prog s)) /\ graphs_kept gs gs' /\ returned mpl own s /\
    weakest_removed h sm E /\ decorated ns es h sm E prog all_node all_edge node edge graph h' f.
Proof.
  intros SM S C K W H1 H2 H3 H4 D A F. apply asks_effective in A as (A0 & <- & <- & <- & <- & <- & <-).
  destruct (plot_enforced ns es nw ew h gs self sm SM S C H1 H2 H3 H4 D K kw mpl own _ W eq_refl A0 F) as (E & h' & gs' & f & P & G & R & Q). exists E, h', gs', f, (way mpl own). repeat (split; auto). apply way_returned.
Qed.
Print Assumptions C131_enforced.

(** Errors, which leave everything that existed as it was: an estimator that is not fitted, and keywords that plot_structure does
    not have. *)
Theorem C131_errors ns es nw ew h gs :
  (forall enforce kw mpl own, plot_dag ns es nw ew h gs None enforce kw mpl own = (h, gs, Err NotFittedError)) /\
  (forall self k mpl own, kw_other k = true ->
     exists h' gs', plot_dag ns es nw ew h gs (Some self) false (Some k) mpl own = (h', gs', Err TypeError) /\ firstn (List.length h) h' = h /\ graphs_kept gs gs').
Proof.
  split; auto. intros self k mpl own O. exists (h ++ h). eexists. split; [|split; [rewrite firstn_app, Nat.sub_diag, firstn_all, firstn_O, app_nil_r; auto|]].
  - assert (T : kw_truthy k = true) by (destruct k as [[|] [|] [|] [|] [|] [|] [|]]; cbn in *; auto; discriminate). unfold plot_dag. destruct (deepcopy h (gread gs self)) as [h1 g] eqn:E.
    unfold deepcopy in E. injection E as <- <-. cbv zeta. rewrite T, O. reflexivity.
  - apply kept_app.
Qed.
Print Assumptions C131_errors.

(** ** Examples *)

(** Two nodes that point at each other; the styles are at addresses 0 to 3. *)
Definition fig_heap : heap :=
  [node_normal; edge_normal; node_weak; edge_weak; [("bias", ANone)]; []; [("weight", ANum (Q2Qc (- 2)))]; [("weight", ANum (Q2Qc 1)); ("mean_effect", ANum (Q2Qc 1))]].
Definition fig_sm : pgraph := mkPg [(LStr "a", 4%nat); (LStr "b", 5%nat)] [((LStr "a", LStr "b"), 6%nat); ((LStr "b", LStr "a"), 7%nat)].

Example fig_separate : separate fig_heap fig_sm.
Proof. constructor; cbn; [nodup|nodup|nodup|intros a [<-|[<-|[<-|[<-|[]]]]]; lia]. Qed.
Example fig_closed : closed fig_sm.
Proof. intros u v [E|[E|[]]]; injection E as <- <-; cbn; auto. Qed.
Example fig_dicts e a : In (e, a) (pg_edges fig_sm) -> NoDup (map fst (hread fig_heap a)).
Proof. intros [E|[E|[]]]; injection E as <- <-; cbn; nodup. Qed.
Example fig_weighted : all_weighted fig_heap fig_sm.
Proof. intros e [<-|[<-|[]]]; eexists; [exists 6%nat|exists 7%nat]; eexists; (split; [cbn; auto|]); split; reflexivity. Qed.
Example fig_styles : dicts [hread fig_heap 0; hread fig_heap 1].
Proof. intros d [<-|[<-|[]]]; cbn [hread nth fig_heap node_normal edge_normal map fst]; nodup. Qed.
Example fig_args : fine_args node_weak edge_weak [] [] [("scale", AStr "0.5")].
Proof. split; [|split; constructor]. intros d [<-|[<-|[<-|[]]]]; cbn [node_weak edge_weak map fst]; nodup. Qed.

(** Without keywords and with enforce_dag the edge of weight 1 is not drawn, but the graph has it still. *)
Example C131_run : let '(h', gs', r) := plot_dag 0 1 2 3 fig_heap [fig_sm] (Some 0%nat) true None true false in
  firstn 8 h' = fig_heap /\ gread gs' 0 = fig_sm /\
  match r with
  | Ok p => map fst (pg_edges (fig_graph (pic_fig p))) = [(LStr "a", LStr "b")] /\ pic_prog p = "neato" /\ pic_shown p = NewFigure /\ attr (fig_attrs (pic_fig p)) "scale" = Some (AStr "0.5") /\
      map (fun na => attr (hread h' (snd na)) "fontsize") (pg_nodes (fig_graph (pic_fig p))) = [Some (ANum (Q2Qc 10)); Some (ANum (Q2Qc 10))]
  | Err _ => False
  end.
Proof. vm_compute. repeat split; reflexivity. Qed.

Example C131_met : exists E h' gs' f s, plot_dag 0 1 2 3 fig_heap [fig_sm] (Some 0%nat) true None true false = (h', gs', Ok (mkPic f "neato" s)) /\ graphs_kept [fig_sm] gs' /\ returned true false s /\
  weakest_removed fig_heap fig_sm E /\ decorated 0 1 fig_heap fig_sm E "neato" node_weak edge_weak [] [] [("scale", AStr "0.5")] h' f.
Proof.
  apply C131_enforced; try (cbn; lia); [reflexivity|apply fig_separate|apply fig_closed|apply fig_dicts|apply fig_weighted|apply fig_styles| |apply fig_args].
  apply asks_default. auto.
Qed.

(** One might expect keywords to override only what they name.  Asking for another layout program changes the style of
    the nodes: the weak style is replaced by the normal one and the scale of the graph by 2. *)
Theorem C131_merge_refuted : ~ (forall ns es nw ew h gs self mpl own p h1 g1 h2 g2 r1 r2,
  plot_dag ns es nw ew h gs (Some self) false None mpl own = (h1, g1, Ok r1) ->
  plot_dag ns es nw ew h gs (Some self) false (Some (mkKw (Some p) None None None None None false)) mpl own = (h2, g2, Ok r2) ->
  fig_attrs (pic_fig r2) = fig_attrs (pic_fig r1) /\
  forall n a b, In (n, a) (pg_nodes (fig_graph (pic_fig r1))) -> In (n, b) (pg_nodes (fig_graph (pic_fig r2))) -> attr (hread h2 b) "fontsize" = attr (hread h1 a) "fontsize").
Proof.
  intros H. destruct (plot_dag 0 1 2 3 fig_heap [fig_sm] (Some 0%nat) false None true false) as [[h1 g1] [r1|x]] eqn:E1; [|vm_compute in E1; discriminate].
  destruct (plot_dag 0 1 2 3 fig_heap [fig_sm] (Some 0%nat) false (Some (mkKw (Some "dot") None None None None None false)) true false) as [[h2 g2] [r2|x]] eqn:E2; [|vm_compute in E2; discriminate].
  destruct (H 0 1 2 3 fig_heap [fig_sm] 0%nat true false "dot" h1 g1 h2 g2 r1 r2 E1 E2) as [_ N]. vm_compute in E1, E2. injection E1 as <- <- <-. injection E2 as <- <- <-.
  specialize (N (LStr "a")). cbn [pic_fig fig_graph pg_nodes] in N. specialize (N _ _ (or_introl eq_refl) (or_introl eq_refl)). vm_compute in N. discriminate.
Qed.
Print Assumptions C131_merge_refuted.
