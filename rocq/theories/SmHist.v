(** * SmHist: origins and attributes after any history of calls; weak components. *)
From Coq Require Import List Bool Arith ZArith Lia String QArith Qcanon Permutation Relations.
From Verif Require Import Base Digraph SmModel SmProofs.
Import ListNotations.
Local Open Scope string_scope.
Local Open Scope list_scope.

(** ** Specification: which origin a call gives to an edge *)

(** The origin the tuple (u, v, d) of a call with origin [o] asks for. *)
Definition asked (o : string) (d : attrs) : aval :=
  match aget d "origin" with Some x => x | None => AStr o end.

Definition same_pair (x y u v : label) : bool := label_eqb x u && label_eqb y v.

(** The last tuple for (u, v) before the first malformed one decides. *)
Fixpoint in_tuples (es : list etuple) (o : string) (u v : label) (acc : option aval) : option aval :=
  match es with
  | [] => acc
  | E2 x y :: r => in_tuples r o u v (if same_pair u v x y then Some (AStr o) else acc)
  | E3 x y d :: r => in_tuples r o u v (if same_pair u v x y then Some (asked o d) else acc)
  | EBad :: _ => acc
  end.

Fixpoint in_weighted (es : list wtuple) (weight o : string) (u v : label) (acc : option aval) : option aval :=
  match es with
  | [] => acc
  | W3 x y w :: r => in_weighted r weight o u v (if same_pair u v x y then Some (asked o [(weight, w)]) else acc)
  | WBad :: _ => acc
  end.

(** The origin a call asks for the edge (u, v); [acc] when the call does not add the edge. *)
Definition origin_after (op : sop) (u v : label) (acc : option aval) : option aval :=
  match op with
  | AddEdge x y o _ => if smem o allowed then (if same_pair u v x y then Some (AStr o) else acc) else acc
  | AddEdgesFrom es o _ => if smem o allowed then in_tuples es o u v acc else acc
  | AddWeighted es w o _ => if smem o allowed then in_weighted es w o u v acc else acc
  | _ => acc
  end.

Definition last_origin (ops : list sop) (u v : label) (acc : option aval) : option aval :=
  fold_left (fun acc op => origin_after op u v acc) ops acc.

(** The keys of a dictionary argument are distinct. *)
Definition op_ok (op : sop) : Prop :=
  match op with
  | AddEdge _ _ _ a => NoDup (dkeys a)
  | AddEdgesFrom es _ a => NoDup (dkeys a) /\ forall u v d, In (E3 u v d) es -> NoDup (dkeys d)
  | AddWeighted _ _ _ a => NoDup (dkeys a)
  | _ => True
  end.

(** ** The invariant *)

Definition inv (g : graph) (cur : label -> label -> option aval) : Prop :=
  forall u v a, edge_attrs g u v = Some a -> aget a "origin" = cur u v /\ cur u v <> None.

Definition shrunk (g' g : graph) : Prop :=
  forall u v, edge_attrs g' u v = None \/ edge_attrs g' u v = edge_attrs g u v.

Lemma shrunk_inv g' g cur : shrunk g' g -> inv g cur -> inv g' cur.
Proof. intros S I u v a H. destruct (S u v) as [E|E]; rewrite E in H; [discriminate|]. apply I; auto. Qed.

Lemma sub_shrunk g g' : wf g -> wf g' -> (forall e, In e (edges_data g') -> In e (edges_data g)) -> shrunk g' g.
Proof.
  intros W W' H u v. destruct (edge_attrs g' u v) eqn:E; auto. right. symmetry.
  apply edges_data_In; auto. apply H. apply edges_data_In; auto.
Qed.

Lemma with_origin_get attr o k : aget (with_origin attr o) k = if String.eqb k "origin" then Some (AStr o) else aget attr k.
Proof. apply (dget_dset _ sspec). Qed.

Lemma with_origin_NoDup attr o : NoDup (dkeys attr) -> NoDup (dkeys (with_origin attr o)).
Proof. apply (dset_NoDup _ sspec). Qed.

Lemma new_attrs_get g u v attr dd k : NoDup (dkeys attr) -> NoDup (dkeys dd) ->
  aget (new_attrs g u v attr dd) k =
  match aget dd k with Some x => Some x | None =>
  match aget attr k with Some x => Some x | None =>
  match edge_attrs g u v with Some d => aget d k | None => None end end end.
Proof.
  intros N1 N2. unfold new_attrs. rewrite (dget_dupdate _ sspec), (dget_dupdate _ sspec).
  rewrite !(dget_rev_NoDup _ sspec) by auto.
  destruct (aget dd k); auto. destruct (aget attr k); auto. destruct (edge_attrs g u v); auto.
Qed.

Lemma inv_put g u v attr dd cur o : NoDup (dkeys attr) -> NoDup (dkeys dd) -> aget attr "origin" = Some (AStr o) ->
  inv g cur ->
  inv (put_edge g u v attr dd) (fun x y => if same_pair x y u v then Some (asked o dd) else cur x y).
Proof.
  intros N1 N2 Ho I x y a H. rewrite put_edge_attrs in H. unfold same_pair.
  destruct (label_eqb x u && label_eqb y v); [|apply I; auto].
  injection H as <-. split; [|congruence]. rewrite new_attrs_get by auto. unfold asked. rewrite Ho.
  destruct (aget dd "origin"); auto.
Qed.

Lemma inv_ext g c1 c2 : (forall u v, c1 u v = c2 u v) -> inv g c1 -> inv g c2.
Proof. intros E I u v a H. rewrite <- E. eapply I; eauto. Qed.

Lemma inv_tuples es : forall g attr o cur, NoDup (dkeys attr) -> (forall u v d, In (E3 u v d) es -> NoDup (dkeys d)) ->
  aget attr "origin" = Some (AStr o) -> inv g cur ->
  inv (fst (put_edges g es attr)) (fun u v => in_tuples es o u v (cur u v)).
Proof.
  induction es as [|[x y|x y d|] es IH]; intros g attr o cur N1 N2 Ho I; simpl; auto.
  - apply (IH (put_edge g x y attr []) attr o (fun u v => if same_pair u v x y then Some (AStr o) else cur u v)); auto.
    + intros u v d H. apply (N2 u v d). right; auto.
    + apply (inv_put g x y attr [] cur o); auto. constructor.
  - apply (IH (put_edge g x y attr d) attr o (fun u v => if same_pair u v x y then Some (asked o d) else cur u v)); auto.
    + intros u v d' H. apply (N2 u v d'). right; auto.
    + apply inv_put; auto. apply (N2 x y d). left; auto.
Qed.

Lemma inv_weighted es w : forall g attr o cur, NoDup (dkeys attr) ->
  aget attr "origin" = Some (AStr o) -> inv g cur ->
  inv (fst (put_weighted g es w attr)) (fun u v => in_weighted es w o u v (cur u v)).
Proof.
  induction es as [|[x y d|] es IH]; intros g attr o cur N1 Ho I; simpl; auto.
  apply (IH (put_edge g x y attr [(w, d)]) attr o (fun u v => if same_pair u v x y then Some (asked o [(w, d)]) else cur u v)); auto.
  apply inv_put; auto. repeat constructor. auto.
Qed.

Lemma below_shrunk g t : wf g -> shrunk (fst (remove_edges_below_threshold g t)) g.
Proof.
  intros W. destruct (numeric_dec g) as [N|N].
  - destruct (below_numeric g t W N) as (g' & -> & W' & _ & E). apply sub_shrunk; auto. simpl. rewrite E.
    intros e H. apply filter_In in H; tauto.
  - rewrite below_not_numeric; [intros u v; auto|]. intros N'. destruct N as (u & v & a & I & N).
    destruct (N' u v a I) as (w & Hw). eapply N; eauto.
Qed.

Lemma till_dag_shrunk g : wf g -> shrunk (fst (threshold_till_dag g)) g.
Proof.
  intros W. destruct (is_dag label_eqb (edges g)) eqn:D.
  - apply (is_dag_acyclic _ lspec) in D. rewrite threshold_acyclic_id; auto. intros u v; auto.
  - destruct (numeric_dec g) as [N|N].
    + destruct (threshold_till_dag_spec g W N) as (g' & -> & T). apply sub_shrunk; auto; [apply T|].
      simpl. destruct (td_kept _ _ T) as (k & ->). intros e H. apply filter_In in H; tauto.
    + rewrite threshold_no_weight; [intros u v; auto| |].
      * intros A. apply (is_dag_acyclic _ lspec) in A. congruence.
      * intros N'. destruct N as (u & v & a & I & N). destruct (N' u v a I) as (w & Hw). eapply N; eauto.
Qed.

Lemma del_edge_shrunk g u v a : wf g -> edge_attrs g u v = Some a -> shrunk (del_edge g u v) g.
Proof.
  intros W E. apply sub_shrunk; auto; [eapply wf_del_edge; eauto|].
  destruct (edge_attrs_gget _ _ _ _ E) as (s & G). rewrite (del_edge_data g u v s); [|apply W|auto].
  intros e H. apply filter_In in H; tauto.
Qed.

Definition cur_of (base : aval) (o : option aval) : option aval := match o with Some x => Some x | None => Some base end.

Lemma validate_smem o : validate_origin o = if smem o allowed then Ok tt else Err ValueError.
Proof. reflexivity. Qed.

Lemma inv_step g op cur : wf g -> op_ok op -> inv g cur ->
  inv (fst (sstep g op)) (fun u v => origin_after op u v (cur u v)).
Proof.
  intros W K I. destruct op; cbn [sstep origin_after op_ok] in *; try exact I.
  - unfold add_edge. rewrite validate_smem. destruct (smem origin allowed); cbn [fst]; auto.
    apply (inv_put g u v (with_origin attr origin) [] cur origin); auto.
    + apply with_origin_NoDup; auto.
    + constructor.
    + rewrite with_origin_get. auto.
  - unfold add_edges_from. rewrite validate_smem. destruct (smem origin allowed); cbn [fst]; auto.
    destruct K as [K1 K2]. apply inv_tuples; auto.
    + apply with_origin_NoDup; auto.
    + rewrite with_origin_get. auto.
  - unfold add_weighted_edges_from. rewrite validate_smem. destruct (smem origin allowed); cbn [fst]; auto.
    apply inv_weighted; auto.
    + apply with_origin_NoDup, with_origin_NoDup; auto.
    + rewrite with_origin_get. auto.
  - unfold remove_edge. destruct (edge_attrs g u v) eqn:E; simpl; auto.
    eapply shrunk_inv; [eapply del_edge_shrunk; eauto|auto].
  - eapply shrunk_inv; [|exact I]. destruct (remove_edges_from_spec es g W) as (A & B & C).
    apply sub_shrunk; auto. cbn [fst]. rewrite C. intros e H. apply filter_In in H; tauto.
  - eapply shrunk_inv; [|exact I]. intros x y. apply remove_node_attrs; auto.
  - eapply shrunk_inv; [|exact I]. apply below_shrunk; auto.
  - eapply shrunk_inv; [|exact I]. apply till_dag_shrunk; auto.
Qed.

Lemma inv_run ops : forall g cur, wf g -> Forall op_ok ops -> inv g cur ->
  inv (srun g ops) (fun u v => last_origin ops u v (cur u v)).
Proof.
  induction ops as [|op ops IH]; intros g cur W K I; simpl; auto.
  inversion K; subst. apply (IH (fst (sstep g op)) (fun u v => origin_after op u v (cur u v))); auto.
  - apply sstep_wf; auto.
  - apply inv_step; auto.
Qed.

Lemma new_inv ns es o g : sm_new ns es o = Ok g -> inv g (fun _ _ => Some (AStr o)).
Proof.
  unfold sm_new. destruct (validate_origin o); [|discriminate].
  destruct (add_edges_from (fold_left add_node ns []) es "unknown" []) as [g' [|]]; [|discriminate].
  intros [= <-] u v b H. rewrite set_origins_attrs in H. destruct (edge_attrs g' u v); [|discriminate].
  injection H as <-. split; [|congruence]. apply (dget_dset_same _ sspec).
Qed.

(** The graph after a constructor call and a history of calls. *)
Definition history (ns : list label) (es : list etuple) (o : string) (ops : list sop) (g : graph) : Prop :=
  exists g0, sm_new ns es o = Ok g0 /\ Forall op_ok ops /\ g = srun g0 ops.

Lemma history_wf ns es o ops g : history ns es o ops g -> wf g.
Proof. intros (g0 & N & K & ->). apply srun_wf. eapply sm_new_wf; eauto. Qed.

Lemma history_origin ns es o ops g u v a : history ns es o ops g -> edge_attrs g u v = Some a ->
  exists x, last_origin ops u v (Some (AStr o)) = Some x /\ aget a "origin" = Some x.
Proof.
  intros (g0 & N & K & ->) H.
  destruct (inv_run ops g0 _ (sm_new_wf _ _ _ _ N) K (new_inv _ _ _ _ N) u v a H) as [E F].
  destruct (last_origin ops u v (Some (AStr o))) eqn:L; [|congruence]. eauto.
Qed.

Lemma aval_eqb_str x o : aval_eqb x (AStr o) = true <-> x = AStr o.
Proof.
  destruct x; simpl; split; try discriminate.
  - intros H. apply String.eqb_eq in H. congruence.
  - intros [= ->]. apply String.eqb_refl.
Qed.

Lemma edges_with_origin_spec g o : wf g -> (forall u v a, edge_attrs g u v = Some a -> aget a "origin" <> None) ->
  exists l, edges_with_origin g o = Ok l /\ NoDup l /\
    forall u v, In (u, v) l <-> exists a, edge_attrs g u v = Some a /\ aget a "origin" = Some (AStr o).
Proof.
  intros W H. unfold edges_with_origin.
  rewrite (mapM_ok_intro _ _ (fun e => (fst e, match aget (snd e) "origin" with Some x => aval_eqb x (AStr o) | None => false end))).
  2:{ intros [[u v] a] I. apply edges_data_In in I; auto. specialize (H _ _ _ I). simpl.
      destruct (aget a "origin"); [auto|congruence]. }
  simpl. eexists. split; [reflexivity|]. split.
  - assert (N : NoDup (map fst (map (fun e : label * label * attrs => (fst e, match aget (snd e) "origin" with Some x => aval_eqb x (AStr o) | None => false end)) (edges_data g)))).
    { rewrite map_map. simpl. apply edges_NoDup; auto. }
    clear - N. revert N.
    generalize (map (fun e : label * label * attrs => (fst e, match aget (snd e) "origin" with Some x => aval_eqb x (AStr o) | None => false end)) (edges_data g)).
    intros l. induction l as [|[e b] l IH]; simpl; auto. intros N. inversion N; subst.
    destruct b; simpl; auto. constructor; auto. intros I. apply H1. apply in_map_iff in I as (x & <- & I).
    apply in_map. apply filter_In in I; tauto.
  - intros u v. rewrite in_map_iff. split.
    + intros ([e b] & E & I). simpl in E. subst e. apply filter_In in I as [I B]. simpl in B. subst b.
      apply in_map_iff in I as ([[u' v'] a] & E & I). simpl in E. injection E as -> -> E.
      exists a. split; [apply edges_data_In; auto|]. destruct (aget a "origin") as [x|]; [|discriminate].
      apply aval_eqb_str in E. congruence.
    + intros (a & I & E). exists (u, v, true). split; auto. apply filter_In. split; auto.
      apply in_map_iff. exists (u, v, a). simpl. rewrite E. split; [|apply edges_data_In; auto].
      f_equal. apply aval_eqb_str; auto.
Qed.

(** ** Valid origins *)

Definition valid (x : aval) : Prop := exists o, In o allowed /\ x = AStr o.

(** No dictionary of the call names another origin. *)
Definition no_own_origin (op : sop) : Prop :=
  match op with
  | AddEdgesFrom es _ _ => forall u v d x, In (E3 u v d) es -> aget d "origin" = Some x -> valid x
  | AddWeighted es w _ _ => w = "origin" -> forall u v x, In (W3 u v x) es -> valid x
  | _ => True
  end.

Lemma asked_valid o d : In o allowed -> (forall x, aget d "origin" = Some x -> valid x) -> valid (asked o d).
Proof. intros A H. unfold asked. destruct (aget d "origin") eqn:E; auto. exists o; auto. Qed.

Lemma in_tuples_valid es o u v : In o allowed ->
  (forall u v d x, In (E3 u v d) es -> aget d "origin" = Some x -> valid x) ->
  forall acc, (forall x, acc = Some x -> valid x) -> forall x, in_tuples es o u v acc = Some x -> valid x.
Proof.
  intros A. induction es as [|[a b|a b d|] es IH]; simpl; intros H acc Ha x; auto.
  - apply IH; [intros; eapply H; eauto|]. intros y. destruct (same_pair u v a b); auto.
    intros [= <-]. exists o; auto.
  - apply IH; [intros; eapply H; eauto|]. intros y. destruct (same_pair u v a b); auto.
    intros [= <-]. apply asked_valid; auto. intros z Hz. eapply H; eauto.
Qed.

Lemma in_weighted_valid es w o u v : In o allowed ->
  (w = "origin" -> forall u v x, In (W3 u v x) es -> valid x) ->
  forall acc, (forall x, acc = Some x -> valid x) -> forall x, in_weighted es w o u v acc = Some x -> valid x.
Proof.
  intros A. induction es as [|[a b d|] es IH]; intros H acc Ha x; [simpl; auto| |simpl; auto]. cbn [in_weighted].
  apply IH; [intros; eapply H; [auto|right; eauto]|]. intros y. destruct (same_pair u v a b); auto.
  intros [= <-]. apply asked_valid; auto. intros z Hz. cbn [dget] in Hz.
  destruct (String.eqb_spec "origin" w); [|discriminate]. injection Hz as <-. apply (H (eq_sym e) a b). left; auto.
Qed.

Lemma last_origin_valid ops u v : Forall no_own_origin ops -> forall acc, (forall x, acc = Some x -> valid x) ->
  forall x, last_origin ops u v acc = Some x -> valid x.
Proof.
  unfold last_origin. induction ops as [|op ops IH]; simpl; intros F acc Ha x; auto.
  inversion F; subst. apply IH; auto. intros y. destruct op; cbn [origin_after no_own_origin] in *; auto.
  - destruct (smem origin allowed) eqn:E; auto. destruct (same_pair u v u0 v0); auto.
    intros [= <-]. exists origin. split; auto. apply smem_In; auto.
  - destruct (smem origin allowed) eqn:E; auto. apply smem_In in E. apply in_tuples_valid; auto.
  - destruct (smem origin allowed) eqn:E; auto. apply smem_In in E. apply in_weighted_valid; auto.
Qed.

(** ** Weak components *)

Definition linked (es : list (label * label)) : label -> label -> Prop :=
  clos_refl_sym_trans label (fun a b => In (a, b) es).

Lemma widen_pre es : forall l, exists pre, widen es l = pre ++ l.
Proof.
  unfold widen. induction es as [|e es IH]; simpl; intros l; [exists []; auto|].
  destruct (lmem (fst e) l).
  - destruct (lmem (snd e) l); auto. destruct (IH (snd e :: l)) as (p & ->). exists (p ++ [snd e]). rewrite <- app_assoc. auto.
  - destruct (lmem (snd e) l); auto. destruct (IH (fst e :: l)) as (p & ->). exists (p ++ [fst e]). rewrite <- app_assoc. auto.
Qed.

Lemma lmem_In x l : lmem x l = true <-> In x l.
Proof. apply (memb_In _ lspec). Qed.

Lemma lmem_false x l : lmem x l = false <-> ~ In x l.
Proof. apply (memb_false _ lspec). Qed.

Definition closed (es : list (label * label)) (l : list label) : Prop :=
  forall a b, In (a, b) es -> (In a l <-> In b l).

Lemma app_self {A} (p l : list A) x : p ++ x :: l <> l.
Proof. intros E. apply (f_equal (@List.length A)) in E. rewrite app_length in E. simpl in E. lia. Qed.

Lemma widen_closed es : forall l, widen es l = l -> closed es l.
Proof.
  induction es as [|[a b] es IH]; intros l H; [intros x y []|].
  change (widen es (if lmem a l then (if lmem b l then l else b :: l) else if lmem b l then a :: l else l) = l) in H.
  destruct (lmem a l) eqn:Ea, (lmem b l) eqn:Eb;
    try (match type of H with widen _ (?z :: _) = _ => destruct (widen_pre es (z :: l)) as (p & P) end;
         rewrite P in H; exfalso; exact (app_self _ _ _ H)).
  - apply lmem_In in Ea, Eb. intros x y [E|E]; [injection E as <- <-; tauto|]. apply (IH l H x y E).
  - apply lmem_false in Ea, Eb. intros x y [E|E]; [injection E as <- <-; tauto|]. apply (IH l H x y E).
Qed.

Lemma closed_widen es l : closed es l -> widen es l = l.
Proof.
  unfold widen. induction es as [|[a b] es IH]; simpl; intros C; auto.
  assert (C' : closed es l) by (intros x y H; apply C; right; auto).
  specialize (C a b (or_introl eq_refl)).
  destruct (lmem a l) eqn:Ea, (lmem b l) eqn:Eb; auto;
    exfalso; rewrite ?lmem_In, ?lmem_false in *; tauto.
Qed.

Lemma closed_widen_n es n : forall l, closed es l -> widen_n n es l = l.
Proof. induction n; simpl; intros l C; auto. rewrite closed_widen; auto. Qed.

Lemma widen_NoDup es : forall l, NoDup l -> NoDup (widen es l).
Proof.
  unfold widen. induction es as [|e es IH]; simpl; intros l N; auto. apply IH.
  destruct (lmem (fst e) l) eqn:E1, (lmem (snd e) l) eqn:E2; auto; constructor; auto; apply lmem_false; auto.
Qed.

Lemma widen_within es (U : list label) : (forall a b, In (a, b) es -> In a U /\ In b U) ->
  forall l, incl l U -> incl (widen es l) U.
Proof.
  unfold widen. induction es as [|[a b] es IH]; simpl; intros H l I; auto.
  apply IH; [intros; apply H; auto|]. destruct (H a b (or_introl eq_refl)).
  destruct (lmem a l), (lmem b l); auto; intros z [<-|Hz]; auto.
Qed.

Lemma widen_n_closed es U : (forall a b, In (a, b) es -> In a U /\ In b U) ->
  forall n l, NoDup l -> incl l U -> (List.length U < n + List.length l)%nat -> closed es (widen_n n es l).
Proof.
  intros H. induction n as [|n IH]; simpl; intros l N I L.
  - apply (NoDup_incl_length N) in I. lia.
  - destruct (widen_pre es l) as ([|x p] & P).
    + simpl in P. rewrite P. rewrite closed_widen_n; apply widen_closed; auto.
    + apply IH.
      * apply widen_NoDup; auto.
      * apply widen_within; auto.
      * rewrite P, app_length. simpl. lia.
Qed.

Lemma widen_n_incl es n : forall l, incl l (widen_n n es l).
Proof.
  induction n; simpl; intros l; [apply incl_refl|]. eapply incl_tran; [|apply IHn].
  destruct (widen_pre es l) as (p & ->). apply incl_appr, incl_refl.
Qed.

Lemma widen_linked es0 es x : incl es es0 ->
  forall l, (forall y, In y l -> linked es0 x y) -> forall y, In y (widen es l) -> linked es0 x y.
Proof.
  unfold widen. induction es as [|[a b] es IH]; simpl; intros I l H y; auto.
  apply IH; [intros z Hz; apply I; right; auto|]. clear y. intros y Hy.
  assert (L : linked es0 a b) by (apply rst_step; apply I; left; auto).
  destruct (lmem a l) eqn:Ea, (lmem b l) eqn:Eb; auto; destruct Hy as [<-|Hy]; auto;
    rewrite ?lmem_In in *.
  - eapply rst_trans; [apply H, Ea|auto].
  - eapply rst_trans; [apply H, Eb|apply rst_sym; auto].
Qed.

Lemma widen_n_linked es x n : forall l, (forall y, In y l -> linked es x y) ->
  forall y, In y (widen_n n es l) -> linked es x y.
Proof.
  induction n; simpl; intros l H y Hy; auto. eapply IHn; [|exact Hy].
  apply widen_linked; auto. apply incl_refl.
Qed.

Lemma closed_linked es l x y : closed es l -> linked es x y -> (In x l <-> In y l).
Proof. intros C. induction 1; [apply C; auto|tauto|tauto|tauto]. Qed.

Lemma linked_node g x y : wf g -> linked (edges g) x y -> In x (nodes g) <-> In y (nodes g).
Proof.
  intros W. induction 1; [|tauto|tauto|tauto].
  apply edges_nodes in H; auto. tauto.
Qed.

Lemma component_In g x y : wf g -> In x (nodes g) -> (In y (component g x) <-> linked (edges g) x y).
Proof.
  intros W Hx. unfold component. rewrite filter_In, lmem_In.
  assert (C : closed (edges g) (widen_n (List.length (nodes g)) (edges g) [x])).
  { apply (widen_n_closed _ (nodes g)).
    - intros a b H. apply edges_nodes; auto.
    - repeat constructor; auto.
    - intros z [<-|[]]; auto.
    - simpl. lia. }
  assert (S : In x (widen_n (List.length (nodes g)) (edges g) [x])) by (apply widen_n_incl; left; auto).
  split.
  - intros [_ H]. eapply widen_n_linked; [|exact H]. intros z [<-|[]]. apply rst_refl.
  - intros L. split; [apply (linked_node g x y W L); auto|].
    apply (closed_linked _ _ x y C L); auto.
Qed.

Lemma components_spec g : wf g ->
  (forall c, In c (components g) -> exists x, In x (nodes g) /\ c = component g x) /\
  (forall x, In x (nodes g) -> exists c, In c (components g) /\ In x c).
Proof.
  intros W. unfold components.
  assert (G : forall ns cs, incl ns (nodes g) ->
    (forall c, In c cs -> exists x, In x (nodes g) /\ c = component g x) ->
    let r := fold_left (fun cs x => if existsb (lmem x) cs then cs else cs ++ [component g x]) ns cs in
    (forall c, In c r -> exists x, In x (nodes g) /\ c = component g x) /\
    (forall x, In x ns -> exists c, In c r /\ In x c) /\ incl cs r).
  { induction ns as [|x ns IH]; simpl; intros cs I H.
    - split; auto. split; [intros x []|apply incl_refl].
    - assert (Hx : In x (nodes g)) by (apply I; left; auto).
      assert (I' : incl ns (nodes g)) by (intros z Hz; apply I; right; auto).
      destruct (existsb (lmem x) cs) eqn:E.
      + destruct (IH cs I' H) as (A & B & C). split; auto. split; auto.
        intros y [<-|Hy]; auto. apply existsb_exists in E as (c & Hc & E). apply lmem_In in E. eauto.
      + destruct (IH (cs ++ [component g x]) I') as (A & B & C).
        * intros c Hc. apply in_app_iff in Hc as [Hc|[<-|[]]]; eauto.
        * split; auto. split; [|intros z Hz; apply C, in_app_iff; auto].
          intros y [<-|Hy]; auto. exists (component g x). split; [apply C, in_app_iff; simpl; auto|].
          apply component_In; auto. apply rst_refl. }
  destruct (G (nodes g) [] (incl_refl _)) as (A & B & _); [intros c []|]. auto.
Qed.

(** ** Copies of subgraphs *)

Definition same_map (a b : attrs) : Prop := forall k, aget a k = aget b k.

Definition has_origins (g : graph) : Prop := forall u v a, edge_attrs g u v = Some a -> aget a "origin" <> None.

Fixpoint lookup (es : list (label * label * attrs)) (u v : label) : option attrs :=
  match es with
  | [] => None
  | (x, y, d) :: r => if same_pair u v x y then Some d else lookup r u v
  end.

Lemma lookup_In es u v d : NoDup (map fst es) -> (lookup es u v = Some d <-> In (u, v, d) es).
Proof.
  induction es as [|[[x y] e] es IH]; simpl; intros N; [split; [discriminate|tauto]|]. inversion N; subst.
  unfold same_pair. destruct (lspec u x) as [->|Nx], (lspec v y) as [->|Ny]; simpl.
  - split; [intros [= ->]; auto|]. intros [E|E]; [congruence|]. exfalso. apply H1. apply in_map_iff. exists (x, y, d); auto.
  - rewrite IH by auto. split; auto. intros [E|E]; auto. congruence.
  - rewrite IH by auto. split; auto. intros [E|E]; auto. congruence.
  - rewrite IH by auto. split; auto. intros [E|E]; auto. congruence.
Qed.

Definition tup (e : label * label * attrs) : etuple := E3 (fst (fst e)) (snd (fst e)) (snd e).

Lemma put_tuples es attr : forall g, NoDup (map fst es) -> (forall e, In e es -> edge_attrs g (fst (fst e)) (snd (fst e)) = None) ->
  forall u v, edge_attrs (fst (put_edges g (map tup es) attr)) u v =
    match lookup es u v with Some d => Some (dupdate String.eqb (dupdate String.eqb [] attr) d) | None => edge_attrs g u v end.
Proof.
  induction es as [|[[x y] e] es IH]; cbn [map put_edges fst tup snd lookup]; intros g N F u v; auto. inversion N; subst.
  rewrite IH; auto.
  - rewrite put_edge_attrs. unfold same_pair, new_attrs.
    destruct (lspec u x) as [->|Nx], (lspec v y) as [->|Ny]; simpl; auto.
    assert (E : lookup es x y = None).
    { destruct (lookup es x y) eqn:E; auto. apply lookup_In in E; auto. exfalso. apply H1. apply in_map_iff. exists (x, y, l); auto. }
    rewrite E. specialize (F (x, y, e) (or_introl eq_refl)). simpl in F. rewrite F. auto.
  - intros [[a b] d] Hd. simpl. rewrite put_edge_attrs.
    destruct (lspec a x) as [->|], (lspec b y) as [->|]; simpl; try apply (F (_, _, d)); simpl; auto.
    exfalso. apply H1. apply in_map_iff. exists (x, y, d). auto.
Qed.

Lemma put_tuples_nodes es attr : forall g, (forall e, In e es -> In (fst (fst e)) (nodes g) /\ In (snd (fst e)) (nodes g)) ->
  nodes (fst (put_edges g (map tup es) attr)) = nodes g.
Proof.
  induction es as [|[[x y] e] es IH]; cbn [map put_edges tup fst snd]; intros g H; auto.
  assert (P : nodes (put_edge g x y attr e) = nodes g).
  { destruct (H (x, y, e) (or_introl eq_refl)) as [Hx Hy]. simpl in Hx, Hy.
    unfold put_edge.
    assert (A : forall z, In z (nodes g) -> add_node g z = g).
    { intros z Hz. unfold add_node, dhas. rewrite (proj2 (memb_In _ lspec z (dkeys g)) Hz). auto. }
    rewrite (A x Hx), (A y Hy). apply dset_nodes; auto. }
  rewrite IH; auto. rewrite P. intros f Hf. apply H. right; auto.
Qed.

Lemma add_nodes_list ns : forall g, NoDup (nodes g ++ ns) -> nodes (fold_left add_node ns g) = nodes g ++ ns.
Proof.
  induction ns as [|x ns IH]; simpl; intros g N; [rewrite app_nil_r; auto|].
  assert (E : nodes (add_node g x) = nodes g ++ [x]).
  { unfold add_node, dhas. destruct (memb label_eqb x (dkeys g)) eqn:E.
    - apply (memb_In _ lspec) in E. apply NoDup_remove_2 in N. exfalso. apply N, in_app_iff. auto.
    - unfold nodes, dkeys. rewrite map_app. auto. }
  rewrite IH; rewrite E, <- app_assoc; auto.
Qed.

Lemma add_nodes_attrs ns : forall g u v, edge_attrs (fold_left add_node ns g) u v = edge_attrs g u v.
Proof. induction ns; simpl; intros; auto. rewrite IHns, add_node_attrs. auto. Qed.

Lemma filter_NoDup_fst {A B} (p : A * B -> bool) (l : list (A * B)) : NoDup (map fst l) -> NoDup (map fst (filter p l)).
Proof.
  induction l as [|x l IH]; simpl; intros N; auto. inversion N; subst. destruct (p x); simpl; auto.
  constructor; auto. intros H. apply H1. apply in_map_iff in H as (y & E & H). apply filter_In in H as [H _].
  rewrite <- E. apply in_map; auto.
Qed.

Definition inside (c : list label) (e : label * label * attrs) : bool := lmem (fst (fst e)) c && lmem (snd (fst e)) c.

Lemma subgraph_copy_spec g c : wf g -> has_origins g ->
  wf (subgraph_copy g c) /\ nodes (subgraph_copy g c) = filter (fun x => lmem x c) (nodes g) /\
  (forall u v a, edge_attrs (subgraph_copy g c) u v = Some a ->
     In u c /\ In v c /\ exists a0, edge_attrs g u v = Some a0 /\ same_map a a0) /\
  (forall u v a0, edge_attrs g u v = Some a0 -> In u c -> In v c ->
     exists a, edge_attrs (subgraph_copy g c) u v = Some a).
Proof.
  intros W O. unfold subgraph_copy.
  set (ns := filter (fun x => lmem x c) (nodes g)). set (es := filter (inside c) (edges_data g)).
  change (map (fun e => E3 (fst (fst e)) (snd (fst e)) (snd e))
     (filter (fun f => lmem (fst (fst f)) c && lmem (snd (fst f)) c) (edges_data g))) with (map tup es).
  assert (Nn : NoDup ns) by (apply NoDup_filter, W).
  assert (Ne : NoDup (map fst es)) by (apply filter_NoDup_fst, edges_NoDup; auto).
  assert (En : nodes (fold_left add_node ns []) = ns) by (apply (add_nodes_list ns []); auto).
  assert (Ea : forall u v, edge_attrs (fold_left add_node ns []) u v = None).
  { intros. rewrite add_nodes_attrs. reflexivity. }
  assert (V : validate_origin "unknown" = Ok tt) by reflexivity. unfold add_edges_from. rewrite V.
  assert (In_es : forall u v d, In (u, v, d) es <-> edge_attrs g u v = Some d /\ In u c /\ In v c).
  { intros u v d. unfold es. rewrite filter_In, edges_data_In by auto. unfold inside. simpl.
    rewrite andb_true_iff, !lmem_In. tauto. }
  split; [apply wf_put_edges, wf_add_nodes, wf_nil|]. split.
  - rewrite put_tuples_nodes; auto. rewrite En. intros [[u v] d] H. apply In_es in H as (H & Hu & Hv). simpl.
    unfold ns. rewrite !filter_In, !lmem_In.
    destruct (edges_nodes g u v W); [apply edges_In; eauto|]. tauto.
  - split.
    + intros u v a H. rewrite put_tuples in H; auto.
      destruct (lookup es u v) as [d|] eqn:L; [|rewrite Ea in H; discriminate].
      apply lookup_In in L; auto. apply In_es in L as (L & Hu & Hv). split; auto. split; auto.
      exists d. split; auto. injection H as <-. intros k.
      assert (Nd : NoDup (dkeys d)).
      { apply succ_of_In in L as (s & H1 & H2). apply (dget_In _ lspec) in H1, H2. eapply (proj2 W); eauto. }
      rewrite (dget_dupdate _ sspec), (dget_rev_NoDup _ sspec) by auto.
      destruct (aget d k) eqn:Ek; auto. cbn [dget].
      destruct (String.eqb_spec k "origin") as [->|]; auto. exfalso. eapply O; eauto.
    + intros u v a0 H Hu Hv. rewrite put_tuples; auto.
      assert (L : lookup es u v = Some a0) by (apply lookup_In; auto; apply In_es; auto).
      rewrite L. eauto.
Qed.

(** [s] is the weak component of [x]. *)
Record component_of (g : graph) (x : label) (s : graph) : Prop := {
  co_nodes : forall y, In y (nodes s) <-> linked (edges g) x y;
  co_nodup : NoDup (nodes s) /\ NoDup (edges s);
  co_edges : forall u v, In (u, v) (edges s) <-> In (u, v) (edges g) /\ linked (edges g) x u;
  co_attrs : forall u v a, edge_attrs s u v = Some a -> exists a0, edge_attrs g u v = Some a0 /\ same_map a a0
}.

Lemma copy_component g x c : wf g -> has_origins g -> In x (nodes g) ->
  (forall y, In y c <-> linked (edges g) x y) -> component_of g x (subgraph_copy g c).
Proof.
  intros W O Hx C. destruct (subgraph_copy_spec g c W O) as (A1 & A2 & A3 & A4).
  constructor.
  - intros y. rewrite A2, filter_In, lmem_In, C. split; [tauto|]. intros L. split; auto. apply (linked_node g x y W L); auto.
  - split; [apply A1|apply edges_NoDup; auto].
  - intros u v. rewrite !edges_In by auto. split.
    + intros (a & H). apply A3 in H as (Hu & Hv & a0 & H & _). split; eauto. apply C; auto.
    + intros ((a & H) & L). assert (E : In (u, v) (edges g)) by (apply edges_In; eauto).
      apply (A4 u v a H); apply C; auto. eapply rst_trans; [exact L|]. apply rst_step; auto.
  - intros u v a H. apply A3 in H as (_ & _ & H). auto.
Qed.

Lemma linked_component g x y c : wf g -> In y (nodes g) -> In x (component g y) -> c = component g y ->
  forall z, In z c <-> linked (edges g) x z.
Proof.
  intros W Hy Hx -> z. apply component_In in Hx; auto. rewrite component_In by auto. split; intros L.
  - eapply rst_trans; [apply rst_sym; exact Hx|exact L].
  - eapply rst_trans; [exact Hx|exact L].
Qed.

Lemma target_spec g x : wf g -> has_origins g -> In x (nodes g) ->
  exists s, get_target_subgraph g x = Ok s /\ component_of g x s.
Proof.
  intros W O Hx. unfold get_target_subgraph. rewrite (proj2 (lmem_In x (nodes g)) Hx).
  destruct (components_spec g W) as [C1 C2].
  destruct (find (fun s => lmem x (nodes s)) (map (subgraph_copy g) (components g))) as [s|] eqn:F.
  - exists s. split; auto. apply find_some in F as [F1 F2]. apply in_map_iff in F1 as (c & <- & Hc).
    destruct (C1 c Hc) as (y & Hy & E). apply lmem_In in F2.
    destruct (subgraph_copy_spec g c W O) as (_ & N & _). rewrite N in F2. apply filter_In in F2 as [_ F2].
    apply lmem_In in F2. apply copy_component; auto. apply (linked_component g x y c); auto. rewrite <- E; auto.
  - exfalso. destruct (C2 x Hx) as (c & Hc & I).
    pose proof (find_none _ _ F (subgraph_copy g c) (in_map _ _ _ Hc)) as E. apply lmem_false in E. apply E.
    destruct (subgraph_copy_spec g c W O) as (_ & N & _). rewrite N.
    apply filter_In. split; auto. apply lmem_In; auto.
Qed.

Lemma fold_best (l : list graph) : forall k b,
  let r := fold_left (fun (best : nat * option graph) s =>
         if (fst best <? List.length (edges s))%nat then (List.length (edges s), Some s) else best) l (k, b) in
  (k <= fst r)%nat /\ (forall s, In s l -> (List.length (edges s) <= fst r)%nat) /\
  (r = (k, b) \/ exists s, In s l /\ r = (List.length (edges s), Some s) /\ (k < List.length (edges s))%nat).
Proof.
  induction l as [|s l IH]; simpl; intros k b; [split; [lia|split; [intros s []|auto]]|].
  destruct (Nat.ltb_spec k (List.length (edges s))) as [Lt|Ge].
  - destruct (IH (List.length (edges s)) (Some s)) as (A & B & C). cbv zeta in *.
    split; [lia|]. split; [intros t [<-|Ht]; auto|]. right. destruct C as [C|(t & T1 & T2 & T3)].
    + exists s. rewrite C. auto.
    + exists t. rewrite T2. split; auto. split; auto. lia.
  - destruct (IH k b) as (A & B & C). cbv zeta in *. split; auto. split; [intros t [<-|Ht]; auto; lia|].
    destruct C as [C|(t & T1 & T2 & T3)]; auto. right. exists t. auto.
Qed.

Lemma largest_spec g : wf g -> has_origins g ->
  match get_largest_subgraph g with
  | None => edges g = []
  | Some s => edges s <> [] /\ (exists x, In x (nodes g) /\ component_of g x s) /\
      forall y l, NoDup l -> (forall u v, In (u, v) l -> In (u, v) (edges g) /\ linked (edges g) y u) ->
        (List.length l <= List.length (edges s))%nat
  end.
Proof.
  intros W O. unfold get_largest_subgraph.
  destruct (components_spec g W) as [C1 C2].
  destruct (fold_best (map (subgraph_copy g) (components g)) 0%nat None) as (_ & B & C). cbv zeta in *.
  assert (Cov : forall y, In y (nodes g) -> exists s, In s (map (subgraph_copy g) (components g)) /\ component_of g y s).
  { intros y Hy. destruct (C2 y Hy) as (c & Hc & I). exists (subgraph_copy g c). split; [apply in_map; auto|].
    destruct (C1 c Hc) as (z & Hz & E). apply copy_component; auto. apply (linked_component g y z c); auto. rewrite <- E; auto. }
  destruct C as [C|(s & S1 & S2 & S3)].
  - rewrite C in *. simpl in *. destruct (edges g) as [|[u v] l] eqn:E; auto. exfalso.
    assert (I : In (u, v) (edges g)) by (rewrite E; left; auto).
    destruct (edges_nodes g u v W I) as [Hu _]. destruct (Cov u Hu) as (s & Hs & [_ _ Ce _]).
    specialize (B s Hs). assert (Is : In (u, v) (edges s)) by (apply Ce; split; auto; apply rst_refl).
    destruct (edges s); [destruct Is|simpl in B; lia].
  - rewrite S2 in *. simpl in *. split; [intros E; rewrite E in S3; simpl in S3; lia|]. split.
    + apply in_map_iff in S1 as (c & <- & Hc). destruct (C1 c Hc) as (x & Hx & ->). exists x. split; auto.
      apply copy_component; auto. intros y. apply component_In; auto.
    + intros y l N H. destruct l as [|[u v] l0] eqn:El; [simpl; lia|]. rewrite <- El in *.
      assert (I0 : In (u, v) l) by (rewrite El; left; auto). destruct (H u v I0) as [E0 L0].
      destruct (edges_nodes g u v W E0) as [Hu _].
      assert (Hy : In y (nodes g)) by (apply (linked_node g y u W L0); auto).
      destruct (Cov y Hy) as (t & Ht & [_ _ Ce _]).
      apply Nat.le_trans with (List.length (edges t)); [|apply B; auto].
      apply NoDup_incl_length; auto. intros [a b] Hab. apply Ce. auto.
Qed.

Lemma history_origins ns es o ops g : history ns es o ops g -> has_origins g.
Proof. intros H u v a E. destruct (history_origin _ _ _ _ _ u v a H E) as (x & _ & ->). discriminate. Qed.
