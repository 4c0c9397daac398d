(** * SmProofs: invariants and lemmas about the StructureModel model. *)
From Coq Require Import List Bool Arith ZArith Lia String QArith Qcanon Permutation Relations.
From Verif Require Import Base Digraph SmModel.
Import ListNotations.
Local Open Scope string_scope.
Local Open Scope list_scope.

Notation lspec := label_eqb_spec (only parsing).
Notation sspec := String.eqb_spec (only parsing).

(** ** Well-formed graphs *)

Definition wf (g : graph) : Prop :=
  NoDup (nodes g) /\
  forall u s, In (u, s) g ->
    NoDup (dkeys s) /\ (forall v a, In (v, a) s -> In v (nodes g) /\ NoDup (dkeys a)).

Lemma wf_nil : wf [].
Proof. split; [constructor|]. intros u s []. Qed.

Lemma succ_of_In g u v a : gget (succ_of g u) v = Some a -> exists s, gget g u = Some s /\ gget s v = Some a.
Proof. unfold succ_of. destruct (gget g u); simpl; [eauto|discriminate]. Qed.

Lemma edges_data_In g u v a : wf g -> In (u, v, a) (edges_data g) <-> edge_attrs g u v = Some a.
Proof.
  intros [ND W]. unfold edges_data, edge_attrs. rewrite in_flat_map. split.
  - intros ([u' s] & H & I). apply in_map_iff in I as ([v' a'] & E & I). simpl in *.
    injection E as -> -> ->. unfold succ_of. rewrite (In_dget _ lspec g u s ND H).
    apply (In_dget _ lspec); auto. apply (W u s H).
  - intros H. apply succ_of_In in H as (s & H1 & H2). apply (dget_In _ lspec) in H1, H2.
    exists (u, s). split; auto. apply in_map_iff. exists (v, a). auto.
Qed.

Lemma edges_In g u v : wf g -> In (u, v) (edges g) <-> exists a, edge_attrs g u v = Some a.
Proof.
  intros W. unfold edges. rewrite in_map_iff. split.
  - intros ([[u' v'] a] & E & H). simpl in E. injection E as -> ->. exists a. apply edges_data_In; auto.
  - intros (a & H). exists (u, v, a). split; auto. apply edges_data_In; auto.
Qed.

Lemma edges_nodes g u v : wf g -> In (u, v) (edges g) -> In u (nodes g) /\ In v (nodes g).
Proof.
  intros W H. apply edges_In in H as (a & H); auto. apply succ_of_In in H as (s & H1 & H2).
  split; [apply (dget_Some_key _ lspec _ _ _ H1)|].
  apply (dget_In _ lspec) in H1, H2. apply (proj2 W u s H1) in H2. tauto.
Qed.

Lemma edges_NoDup g : wf g -> NoDup (edges g).
Proof.
  intros [ND W]. unfold edges, edges_data, nodes, dkeys in *.
  assert (W' : forall u s, In (u, s) g -> NoDup (map fst s)) by (intros; eapply W; eauto). clear W.
  induction g as [|[u s] g IH]; simpl in *; [constructor|]. inversion ND; subst.
  rewrite map_app. apply NoDup_app_iff || idtac.
  assert (A : NoDup (map fst (map (fun va : label * attrs => (u, fst va, snd va)) s))).
  { rewrite map_map. simpl. specialize (W' u s (or_introl eq_refl)). clear - W'.
    induction s as [|[v a] s IH]; simpl in *; [constructor|]. inversion W'; subst. constructor; auto.
    intros H. apply H1. apply in_map_iff in H as (x & E & H). injection E as E. rewrite <- E. apply in_map; auto. }
  assert (B : NoDup (map fst (flat_map (fun us : label * succs => map (fun va => (fst us, fst va, snd va)) (snd us)) g))).
  { apply IH; auto. intros; eapply W'; eauto. }
  revert A B.
  assert (D : forall e, In e (map fst (map (fun va : label * attrs => (u, fst va, snd va)) s)) ->
     ~ In e (map fst (flat_map (fun us : label * succs => map (fun va => (fst us, fst va, snd va)) (snd us)) g))).
  { intros e H1' H2'. apply in_map_iff in H1' as (x & E & H1'). apply in_map_iff in H1' as (y & E' & _). subst.
    apply in_map_iff in H2' as (x & E & H2'). apply in_flat_map in H2' as (z & Hz & H2').
    apply in_map_iff in H2' as (w & E' & _). subst. simpl in E. injection E as E _. apply H1. rewrite <- E.
    apply in_map; auto. }
  revert D. generalize (map fst (flat_map (fun us : label * succs => map (fun va => (fst us, fst va, snd va)) (snd us)) g)).
  generalize (map fst (map (fun va : label * attrs => (u, fst va, snd va)) s)).
  clear. intros l1 l2 D N1 N2. induction l1 as [|x l1 IH]; simpl; auto.
  inversion N1; subst. constructor.
  - rewrite in_app_iff. intros [H|H]; [auto|]. apply (D x); simpl; auto.
  - apply IH; auto. intros; apply D; simpl; auto.
Qed.

(** ** Adding *)

Lemma add_node_nodes g u x : In x (nodes (add_node g u)) <-> x = u \/ In x (nodes g).
Proof.
  unfold add_node, dhas. destruct (memb label_eqb u (dkeys g)) eqn:E.
  - apply (memb_In _ lspec) in E. split; auto. intros [->|]; auto.
  - unfold nodes, dkeys. rewrite map_app, in_app_iff. simpl. intuition.
Qed.

Lemma gget_app (g h : graph) u :
  gget (g ++ h) u = match gget g u with Some s => Some s | None => gget h u end.
Proof. induction g as [|[k s] g IH]; simpl; auto. destruct (label_eqb u k); auto. Qed.

Lemma add_node_succ g u x : succ_of (add_node g u) x = succ_of g x.
Proof.
  unfold add_node, succ_of. destruct (dhas label_eqb g u) eqn:E; auto.
  rewrite gget_app. destruct (gget g x); auto. simpl. destruct (label_eqb x u); auto.
Qed.

Lemma add_node_attrs g u x y : edge_attrs (add_node g u) x y = edge_attrs g x y.
Proof. unfold edge_attrs. rewrite add_node_succ. auto. Qed.

Lemma wf_add_node g u : wf g -> wf (add_node g u).
Proof.
  intros [ND W]. split.
  - unfold add_node, dhas. destruct (memb label_eqb u (dkeys g)) eqn:E; auto.
    unfold nodes, dkeys. rewrite map_app. simpl.
    apply (Permutation_NoDup (l := u :: map fst g)); [apply Permutation_cons_append|].
    constructor; auto. apply (memb_false _ lspec) in E. auto.
  - intros x s H.
    assert (H' : In (x, s) g \/ s = []).
    { unfold add_node in H. destruct (dhas label_eqb g u); auto. apply in_app_iff in H as [H|[E|[]]]; auto.
      injection E as -> <-. auto. }
    destruct H' as [H'| ->].
    + destruct (W x s H') as [A B]. split; auto. intros v a Hv. specialize (B v a Hv).
      split; [|tauto]. apply add_node_nodes. tauto.
    + split; [constructor|]. intros v a [].
Qed.

Lemma dget_mem_nodes g u : In u (nodes g) -> exists s, gget g u = Some s.
Proof. apply (dget_key_Some _ lspec). Qed.

Lemma dset_In {V} (d : list (label * V)) k v x y :
  NoDup (dkeys d) -> In (x, y) (dset label_eqb d k v) -> (x = k /\ y = v) \/ (x <> k /\ In (x, y) d).
Proof.
  intros ND H. apply (In_dget _ lspec) in H; [|apply dset_NoDup; auto; apply lspec].
  rewrite (dget_dset _ lspec) in H. destruct (lspec x k) as [->|N].
  - injection H as ->. auto.
  - right. split; auto. apply (dget_In _ lspec); auto.
Qed.

Definition new_attrs (g : graph) (u v : label) (attr dd : attrs) : attrs :=
  dupdate String.eqb (dupdate String.eqb (match edge_attrs g u v with Some d => d | None => [] end) attr) dd.

Lemma put_edge_nodes g u v attr dd x :
  In x (nodes (put_edge g u v attr dd)) <-> x = u \/ x = v \/ In x (nodes g).
Proof.
  unfold put_edge. cbv zeta. unfold nodes. rewrite (dkeys_dset_In _ lspec).
  fold (nodes (add_node (add_node g u) v)). rewrite !add_node_nodes. intuition.
Qed.

Lemma put_edge_attrs g u v attr dd x y :
  edge_attrs (put_edge g u v attr dd) x y =
  if label_eqb x u && label_eqb y v then Some (new_attrs g u v attr dd) else edge_attrs g x y.
Proof.
  unfold put_edge. cbv zeta. unfold edge_attrs at 1, succ_of at 1.
  rewrite (dget_dset _ lspec). destruct (lspec x u) as [->|N]; simpl.
  - rewrite (dget_dset _ lspec). destruct (lspec y v) as [->|N].
    + unfold new_attrs. rewrite !add_node_attrs. auto.
    + rewrite !add_node_succ. reflexivity.
  - change (edge_attrs (add_node (add_node g u) v) x y = edge_attrs g x y). rewrite !add_node_attrs. auto.
Qed.

Lemma new_attrs_NoDup g u v attr dd : wf g -> NoDup (dkeys (new_attrs g u v attr dd)).
Proof.
  intros W. unfold new_attrs. apply (dupdate_NoDup _ sspec), (dupdate_NoDup _ sspec).
  destruct (edge_attrs g u v) eqn:E; [|constructor].
  apply succ_of_In in E as (s & H1 & H2). apply (dget_In _ lspec) in H1, H2. eapply (proj2 W); eauto.
Qed.

Lemma wf_put_edge g u v attr dd : wf g -> wf (put_edge g u v attr dd).
Proof.
  intros W. set (g1 := add_node (add_node g u) v).
  assert (W1 : wf g1) by (apply wf_add_node, wf_add_node; auto).
  split.
  - unfold put_edge. fold g1. apply (dset_NoDup _ lspec). apply W1.
  - intros x s H.
    assert (N : forall z, In z (nodes g1) -> In z (nodes (put_edge g u v attr dd))).
    { intros z Hz. apply put_edge_nodes. unfold g1 in Hz. rewrite !add_node_nodes in Hz. intuition. }
    unfold put_edge in H. fold g1 in H. apply dset_In in H; [|apply W1].
    destruct H as [(-> & ->)|(Nx & H)].
    + assert (S1 : exists s0, gget g1 u = Some s0).
      { apply dget_mem_nodes. unfold g1. rewrite !add_node_nodes. auto. }
      destruct S1 as (s0 & S1). assert (Es : succ_of g1 u = s0) by (unfold succ_of; rewrite S1; auto).
      rewrite Es. apply (dget_In _ lspec) in S1. destruct (proj2 W1 u s0 S1) as [A B]. split.
      * apply (dset_NoDup _ lspec); auto.
      * intros y a Hy. apply dset_In in Hy; auto. destruct Hy as [(-> & ->)|(Ny & Hy)].
        -- split.
           ++ apply put_edge_nodes. auto.
           ++ assert (E : edge_attrs g1 u v = edge_attrs g u v) by (unfold g1; rewrite !add_node_attrs; auto).
              rewrite E. apply (new_attrs_NoDup g u v attr dd W).
        -- destruct (B y a Hy). split; auto.
    + destruct (proj2 W1 x s H) as [A B]. split; auto. intros y a Hy. destruct (B y a Hy). auto.
Qed.

Lemma wf_put_edges es : forall g attr, wf g -> wf (fst (put_edges g es attr)).
Proof.
  induction es as [|[u v|u v d|] es IH]; intros g attr W; simpl; auto using wf_put_edge.
Qed.

Lemma wf_put_weighted es : forall g w attr, wf g -> wf (fst (put_weighted g es w attr)).
Proof.
  induction es as [|[u v d|] es IH]; intros g w attr W; simpl; auto using wf_put_edge.
Qed.

(** ** Removing *)

Definition not_edge (u v : label) (e : label * label * attrs) : bool :=
  negb (label_eqb u (fst (fst e)) && label_eqb v (snd (fst e))).

Lemma filter_flat_map {A B} (p : B -> bool) (f : A -> list B) l :
  filter p (flat_map f l) = flat_map (fun x => filter p (f x)) l.
Proof. induction l as [|x l IH]; simpl; auto. rewrite filter_app, IH. auto. Qed.

Lemma filter_map {A B} (p : B -> bool) (f : A -> B) l :
  filter p (map f l) = map f (filter (fun x => p (f x)) l).
Proof. induction l as [|x l IH]; simpl; auto. destruct (p (f x)); simpl; rewrite IH; auto. Qed.

Lemma filter_all {A} (p : A -> bool) l : (forall x, In x l -> p x = true) -> filter p l = l.
Proof. induction l as [|x l IH]; simpl; intros H; auto. rewrite H by auto. f_equal; auto. Qed.

Lemma flat_map_eq {A B} (f h : A -> list B) l : (forall x, In x l -> f x = h x) -> flat_map f l = flat_map h l.
Proof. induction l as [|x l IH]; simpl; intros H; auto. rewrite H, IH; auto. Qed.

Lemma del_edge_data g u v s : NoDup (nodes g) -> gget g u = Some s ->
  edges_data (del_edge g u v) = filter (not_edge u v) (edges_data g).
Proof.
  intros ND G. unfold del_edge, succ_of. rewrite G. unfold edges_data. rewrite filter_flat_map.
  induction g as [|[x t] g IH]; simpl in *; [discriminate|]. inversion ND; subst.
  destruct (lspec u x) as [->|N]; simpl.
  - injection G as ->. f_equal.
    + rewrite filter_map. f_equal. unfold ddel. apply filter_ext. intros [y a]. unfold not_edge. simpl.
      rewrite (eqb_refl' _ lspec). auto.
    + apply flat_map_eq. intros [y t'] Hy. symmetry. apply filter_all. intros e He. simpl in He.
      apply in_map_iff in He as ([z a] & <- & _). unfold not_edge. simpl.
      destruct (lspec x y) as [->|]; auto. exfalso. apply H1. apply in_map_iff. exists (y, t'). auto.
  - f_equal; [|apply IH; auto]. symmetry. apply filter_all. intros e He.
    apply in_map_iff in He as ([z a] & <- & _). unfold not_edge. simpl. destruct (lspec u x); [congruence|auto].
Qed.

Lemma dset_nodes (g : graph) u s : In u (nodes g) -> nodes (dset label_eqb g u s) = nodes g.
Proof.
  intros H. unfold nodes. rewrite (dkeys_dset _ lspec). unfold dhas.
  rewrite (proj2 (memb_In _ lspec u (dkeys g)) H). auto.
Qed.

Lemma edge_attrs_gget g u v a : edge_attrs g u v = Some a -> exists s, gget g u = Some s.
Proof. intros H. apply succ_of_In in H as (s & H & _). eauto. Qed.

Lemma del_edge_nodes g u v a : edge_attrs g u v = Some a -> nodes (del_edge g u v) = nodes g.
Proof.
  intros H. apply edge_attrs_gget in H as (s & H). unfold del_edge. apply dset_nodes.
  apply (dget_Some_key _ lspec _ _ _ H).
Qed.

Lemma wf_del_edge g u v a : edge_attrs g u v = Some a -> wf g -> wf (del_edge g u v).
Proof.
  intros E W. pose proof (del_edge_nodes g u v a E) as N. split; [rewrite N; apply W|].
  rewrite N. intros x s H. unfold del_edge in H. apply dset_In in H; [|apply W].
  apply edge_attrs_gget in E as (s0 & E). unfold succ_of in H. rewrite E in H.
  apply (dget_In _ lspec) in E. destruct H as [(-> & ->)|(Nx & H)].
  - destruct (proj2 W u s0 E) as [A B]. split; [apply ddel_NoDup; auto|].
    intros y b Hy. unfold ddel in Hy. apply filter_In in Hy as [Hy _]. apply B; auto.
  - apply (proj2 W x s H).
Qed.

Lemma remove_edge_wf g u v : wf g -> wf (fst (remove_edge g u v)).
Proof. intros W. unfold remove_edge. destruct (edge_attrs g u v) eqn:E; simpl; auto. eapply wf_del_edge; eauto. Qed.

Definition pair_eqb (e f : label * label) : bool := label_eqb (fst e) (fst f) && label_eqb (snd e) (snd f).

Lemma pair_eqb_spec e f : reflect (e = f) (pair_eqb e f).
Proof.
  destruct e as [a b], f as [c d]. unfold pair_eqb. simpl. destruct (lspec a c), (lspec b d); simpl; constructor; congruence.
Qed.

Lemma filter_filter {A} (p q : A -> bool) l : filter p (filter q l) = filter (fun x => q x && p x) l.
Proof. induction l as [|x l IH]; simpl; auto. destruct (q x); simpl; rewrite <- IH; auto. Qed.

Lemma remove_edges_from_spec es : forall g, wf g ->
  wf (remove_edges_from g es) /\ nodes (remove_edges_from g es) = nodes g /\
  edges_data (remove_edges_from g es) = filter (fun e => negb (memb pair_eqb (fst e) es)) (edges_data g).
Proof.
  induction es as [|[u v] es IH]; intros g W.
  - simpl. split; auto. split; auto. symmetry. apply filter_all. auto.
  - unfold remove_edges_from. simpl. destruct (edge_attrs g u v) eqn:E.
    + pose proof (wf_del_edge g u v _ E W) as W'. destruct (IH _ W') as (A & B & C).
      split; [exact A|]. split; [rewrite <- (del_edge_nodes g u v _ E); exact B|].
      unfold remove_edges_from in C. rewrite C.
      destruct (edge_attrs_gget _ _ _ _ E) as (s & G). rewrite (del_edge_data g u v s); [|apply W|auto].
      rewrite filter_filter. apply filter_ext. intros [[x y] a]. unfold not_edge, memb. simpl.
      unfold pair_eqb at 2. simpl.
      destruct (lspec u x), (lspec x u), (lspec v y), (lspec y v); subst; simpl; auto; congruence.
    + destruct (IH _ W) as (A & B & C). split; [exact A|]. split; [exact B|].
      unfold remove_edges_from in C. rewrite C. apply filter_ext_in. intros [[x y] a] H.
      simpl. destruct (pair_eqb_spec (x, y) (u, v)) as [F|F]; auto. injection F as -> ->.
      apply edges_data_In in H; auto. congruence.
Qed.

Lemma ddel_NoDup' {V} (d : list (label * V)) u : NoDup (dkeys d) -> NoDup (dkeys (ddel label_eqb d u)).
Proof. apply ddel_NoDup. Qed.

Lemma remove_node_wf g u : wf g -> wf (fst (remove_node g u)).
Proof.
  intros W. unfold remove_node. destruct (dhas label_eqb g u); simpl; auto.
  assert (N : nodes (map (fun us => (fst us, ddel label_eqb (snd us) u)) (ddel label_eqb g u)) = dkeys (ddel label_eqb g u)).
  { unfold nodes, dkeys. rewrite map_map. auto. }
  split.
  - rewrite N. apply ddel_NoDup'. apply W.
  - rewrite N. intros x s H. apply in_map_iff in H as ([x' s'] & E & H). simpl in E. injection E as -> <-.
    unfold ddel in H. apply filter_In in H as [H _]. destruct (proj2 W x s' H) as [A B].
    split; [apply ddel_NoDup'; auto|]. intros v a Hv. unfold ddel in Hv. apply filter_In in Hv as [Hv Nv].
    destruct (B v a Hv) as [B1 B2]. split; auto. apply (ddel_keys_In _ lspec). split; auto.
    simpl in Nv. intros ->. rewrite (eqb_refl' _ lspec) in Nv. discriminate.
Qed.

Lemma remove_node_attrs g u x y : wf g ->
  edge_attrs (fst (remove_node g u)) x y = None \/ edge_attrs (fst (remove_node g u)) x y = edge_attrs g x y.
Proof.
  intros W. unfold remove_node. destruct (dhas label_eqb g u); simpl; auto.
  unfold edge_attrs, succ_of.
  assert (G : forall h : graph, gget (map (fun us => (fst us, ddel label_eqb (snd us) u)) h) x =
     match gget h x with Some s => Some (ddel label_eqb s u) | None => None end).
  { induction h as [|[k s] h IH]; simpl; auto. destruct (label_eqb x k); auto. }
  rewrite G. destruct (lspec u x) as [->|N].
  - rewrite (dget_ddel_same _ lspec). auto.
  - rewrite (dget_ddel_other _ lspec) by auto. destruct (gget g x) as [s|]; auto.
    destruct (lspec u y) as [->|N'].
    + rewrite (dget_ddel_same _ lspec). auto.
    + rewrite (dget_ddel_other _ lspec) by auto. auto.
Qed.

(** ** Weights *)

Definition numeric (g : graph) : Prop :=
  forall u v a, In (u, v, a) (edges_data g) -> exists w, aget a "weight" = Some (ANum w).

(** [f] succeeds or raises the one exception. *)
Lemma mapM_err {A B} (f : A -> res B) e l :
  (forall x, In x l -> (exists y, f x = Ok y) \/ f x = Err e) -> (exists x, In x l /\ f x = Err e) ->
  mapM f l = Err e.
Proof.
  induction l as [|x l IH]; intros H (z & I & E); [destruct I|]. simpl.
  destruct (H x (or_introl eq_refl)) as [(y & Y)|Y]; rewrite Y; simpl; auto.
  rewrite IH; auto.
  - intros u Hu. apply H. right; auto.
  - destruct I as [->|I]; [congruence|]. eauto.
Qed.

Definition wt (a : attrs) : Qc := match aget a "weight" with Some (ANum x) => x | _ => 0%Qc end.

Lemma numeric_abs a w : aget a "weight" = Some (ANum w) -> abs_val (weight_of a) = Ok (Qcabs (wt a)).
Proof. unfold weight_of, wt. intros ->. auto. Qed.

Lemma not_numeric_abs a : (forall w, aget a "weight" <> Some (ANum w)) -> abs_val (weight_of a) = Err TypeError.
Proof.
  unfold weight_of. destruct (aget a "weight") as [[]|]; simpl; auto. intros H. exfalso. eapply H; auto.
Qed.

Lemma numeric_dec g : numeric g \/ exists u v a, In (u, v, a) (edges_data g) /\ forall w, aget a "weight" <> Some (ANum w).
Proof.
  unfold numeric. induction (edges_data g) as [|[[u v] a] l IH].
  - left. intros u v a [].
  - destruct IH as [IH|(u' & v' & a' & I & N)].
    + destruct (aget a "weight") as [[x| | |]|] eqn:E;
      [left; intros u' v' a' [F|F]; [injection F as <- <- <-; eauto|eauto]|..];
      right; exists u, v, a; (split; [left; auto|]); rewrite E; congruence.
    + right. exists u', v', a'. split; auto. right; auto.
Qed.

Lemma abs_cases a : (exists y, abs_val (weight_of a) = Ok y) \/ abs_val (weight_of a) = Err TypeError.
Proof. destruct (weight_of a); simpl; eauto. Qed.

Lemma Qcltb_true x y : Qcltb x y = true <-> (x < y)%Qc.
Proof. unfold Qcltb. destruct (Qclt_le_dec x y); split; auto; try discriminate. intros H. exfalso. apply (Qclt_not_le _ _ H); auto. Qed.

Lemma Qcltb_false x y : Qcltb x y = false <-> (y <= x)%Qc.
Proof. unfold Qcltb. destruct (Qclt_le_dec x y); split; auto; try discriminate. intros H. exfalso. apply (Qclt_not_le _ _ q); auto. Qed.

Lemma below_numeric g t : wf g -> numeric g ->
  exists g', remove_edges_below_threshold g t = (g', Ok tt) /\ wf g' /\ nodes g' = nodes g /\
  edges_data g' = filter (fun e => negb (Qcltb (Qcabs (wt (snd e))) t)) (edges_data g).
Proof.
  intros W N. unfold remove_edges_below_threshold.
  rewrite (mapM_ok_intro _ _ (fun e => (fst e, Qcltb (Qcabs (wt (snd e))) t))).
  2:{ intros [[u v] a] H. simpl. destruct (N u v a H) as (w & Hw). rewrite (numeric_abs _ _ Hw). auto. }
  destruct (remove_edges_from_spec
              (map fst (filter snd (map (fun e => (fst e, Qcltb (Qcabs (wt (snd e))) t)) (edges_data g)))) g W)
    as (A & B & C).
  eexists. split; [reflexivity|]. split; [auto|]. split; [auto|]. rewrite C. apply filter_ext_in.
  intros [[u v] a] H. f_equal. simpl.
  destruct (Qcltb (Qcabs (wt a)) t) eqn:E.
  - apply (memb_In _ pair_eqb_spec). apply in_map_iff. exists (u, v, true). split; auto.
    apply filter_In. split; auto. apply in_map_iff. exists (u, v, a). simpl. rewrite E. auto.
  - apply (memb_false _ pair_eqb_spec). intros I. apply in_map_iff in I as ([e b] & Ee & I).
    simpl in Ee. subst e. apply filter_In in I as [I Eb]. simpl in Eb. subst b.
    apply in_map_iff in I as ([[u' v'] a'] & Ee & I). simpl in Ee. injection Ee as -> -> Ea.
    apply edges_data_In in I; auto. apply edges_data_In in H; auto. congruence.
Qed.

Lemma below_not_numeric g t : ~ numeric g -> remove_edges_below_threshold g t = (g, Err TypeError).
Proof.
  intros N. destruct (numeric_dec g) as [|(u & v & a & I & Na)]; [contradiction|].
  unfold remove_edges_below_threshold. rewrite (mapM_err _ TypeError); auto.
  - intros [[x y] b] _. simpl. destruct (abs_cases b) as [(z & ->)| ->]; simpl; eauto.
  - exists (u, v, a). split; auto. simpl. rewrite not_numeric_abs; auto.
Qed.

Lemma below_wf g t : wf g -> wf (fst (remove_edges_below_threshold g t)).
Proof.
  intros W. destruct (numeric_dec g) as [N|N].
  - destruct (below_numeric g t W N) as (g' & -> & W' & _). auto.
  - rewrite below_not_numeric; auto. intros N'. destruct N as (u & v & a & I & N).
    destruct (N' u v a I) as (w & Hw). eapply N; eauto.
Qed.

(** ** threshold_till_dag *)

Lemma min_by_spec {A} (l : list (A * Qc)) : forall best,
  In (min_by best l) (best :: l) /\ forall x, In x (best :: l) -> (snd (min_by best l) <= snd x)%Qc.
Proof.
  induction l as [|x l IH]; intros best; simpl.
  - split; auto. intros y [<-|[]]. apply Qcle_refl.
  - destruct (Qcltb (snd x) (snd best)) eqn:E.
    + destruct (IH x) as [A1 A2]. split; [destruct A1; auto|].
      intros y [<-|[<-|H]]; [|apply A2; left; auto|apply A2; right; auto].
      apply Qcle_trans with (snd x); [apply A2; left; auto|]. apply Qcltb_true in E. apply Qclt_le_weak; auto.
    + destruct (IH best) as [A1 A2]. split; [destruct A1; auto|].
      intros y [<-|[<-|H]]; [apply A2; left; auto| |apply A2; right; auto].
      apply Qcle_trans with (snd best); [apply A2; left; auto|]. apply Qcltb_false in E; auto.
Qed.

Definition awt (e : label * label * attrs) : Qc := Qcabs (wt (snd e)).

Lemma edges_key_inj g e e' : wf g -> In e (edges_data g) -> In e' (edges_data g) -> fst e = fst e' -> e = e'.
Proof.
  intros W H H' E. destruct e as [[u v] a], e' as [[u' v'] a']. simpl in E. injection E as -> ->.
  apply edges_data_In in H, H'; auto. congruence.
Qed.

Definition dropped (e : label * label) (l : list (label * label * attrs)) : list (label * label * attrs) :=
  filter (fun f => negb (pair_eqb e (fst f))) l.

Lemma filter_length_lt {A} (p : A -> bool) l x : In x l -> p x = false -> (List.length (filter p l) < List.length l)%nat.
Proof.
  induction l as [|y l IH]; simpl; [intros []|]; intros [->|H] E.
  - rewrite E. pose proof (filter_length_le p l). lia.
  - specialize (IH H E). destruct (p y); simpl; lia.
Qed.

(** One round on a cyclic weighted graph. *)
Lemma threshold_round n g : wf g -> numeric g -> is_dag label_eqb (edges g) = false ->
  exists e g', In e (edges_data g) /\ (forall f, In f (edges_data g) -> (awt e <= awt f)%Qc) /\
    threshold_loop (S n) g = threshold_loop n g' /\ wf g' /\ nodes g' = nodes g /\
    edges_data g' = dropped (fst e) (edges_data g).
Proof.
  intros W N D. cbn [threshold_loop]. rewrite D.
  rewrite (mapM_ok_intro _ _ (fun e => (fst e, awt e))).
  2:{ intros [[u v] a] H. destruct (N u v a H) as (w & Hw). cbn [snd fst]. rewrite (numeric_abs _ _ Hw). auto. }
  destruct (edges_data g) as [|e0 l] eqn:El.
  - unfold edges in D. rewrite El in D. discriminate.
  - cbn [map]. destruct (min_by_spec (map (fun e => (fst e, awt e)) l) (fst e0, awt e0)) as [A B].
    destruct (min_by (fst e0, awt e0) (map (fun e => (fst e, awt e)) l)) as [uv w].
    change ((fst e0, awt e0) :: map (fun e => (fst e, awt e)) l) with (map (fun e => (fst e, awt e)) (e0 :: l)) in A, B.
    rewrite <- El in *. apply in_map_iff in A as (e & E & I). injection E as <- <-.
    destruct e as [[u v] a]. cbn [fst snd]. unfold remove_edge.
    pose proof (proj1 (edges_data_In g u v a W) I) as Ea. rewrite Ea.
    exists (u, v, a), (del_edge g u v). split; auto. split.
    { intros f Hf. apply (B (fst f, awt f)). apply in_map_iff. eauto. }
    split; auto. split; [eapply wf_del_edge; eauto|]. split; [eapply del_edge_nodes; eauto|].
    destruct (edge_attrs_gget _ _ _ _ Ea) as (s & G). rewrite (del_edge_data g u v s); [|apply W|auto].
    reflexivity.
Qed.

(** What is left when the loop ends. *)
Record till_dag (g g' : graph) : Prop := {
  td_wf : wf g';
  td_nodes : nodes g' = nodes g;
  td_kept : exists keep, edges_data g' = filter keep (edges_data g);
  td_acyclic : acyclic (edges g');
  td_light : forall e f, In e (edges_data g) -> ~ In e (edges_data g') -> In f (edges_data g') -> (awt e <= awt f)%Qc;
  td_last : g' = g \/ exists e, In e (edges_data g) /\ ~ In e (edges_data g') /\
      (forall f, In f (edges_data g) -> ~ In f (edges_data g') -> (awt f <= awt e)%Qc) /\
      ~ acyclic (fst e :: edges g')
}.

Lemma till_dag_refl g : wf g -> acyclic (edges g) -> till_dag g g.
Proof.
  intros W A. constructor; auto.
  - exists (fun _ => true). symmetry; apply filter_all; auto.
  - intros e f H H'. contradiction.
Qed.

Lemma edges_of_data (g : graph) : edges g = map fst (edges_data g). Proof. reflexivity. Qed.

Lemma threshold_loop_spec n : forall g, wf g -> numeric g -> (List.length (edges_data g) <= n)%nat ->
  exists g', threshold_loop n g = (g', Ok tt) /\ till_dag g g'.
Proof.
  induction n as [|n IH]; intros g W N L.
  - destruct (edges_data g) eqn:E; [|simpl in L; lia].
    assert (D : is_dag label_eqb (edges g) = true) by (unfold edges; rewrite E; auto).
    simpl. rewrite D. exists g. split; auto. apply (is_dag_acyclic _ lspec) in D.
    apply till_dag_refl; auto.
  - destruct (is_dag label_eqb (edges g)) eqn:D.
    + cbn [threshold_loop]. rewrite D. exists g. split; auto. apply (is_dag_acyclic _ lspec) in D.
      apply till_dag_refl; auto.
    + destruct (threshold_round n g W N D) as (e & g1 & Ie & Min & Eq & W1 & Nd & Ed).
      assert (Sub : forall f, In f (edges_data g1) -> In f (edges_data g)).
      { intros f Hf. rewrite Ed in Hf. apply filter_In in Hf. tauto. }
      assert (Or : forall f, In f (edges_data g) -> f = e \/ In f (edges_data g1)).
      { intros f Hf. destruct (pair_eqb_spec (fst e) (fst f)) as [E|E].
        - left. symmetry. apply (edges_key_inj g); auto.
        - right. rewrite Ed. apply filter_In. split; auto. destruct (pair_eqb_spec (fst e) (fst f)); auto. }
      assert (Ne : ~ In e (edges_data g1)).
      { rewrite Ed. intros H. apply filter_In in H as [_ H]. destruct (pair_eqb_spec (fst e) (fst e)); simpl in H; congruence. }
      destruct (IH g1) as (g' & E' & T).
      * auto.
      * intros u v a H. apply (N u v a). auto.
      * assert (List.length (edges_data g1) < List.length (edges_data g))%nat; [|lia].
        rewrite Ed. apply (filter_length_lt _ _ e); auto. destruct (pair_eqb_spec (fst e) (fst e)); [auto|congruence].
      * destruct T as [T1 T2 (keep & T3) T4 T5 T6].
        assert (Sub' : forall f, In f (edges_data g') -> In f (edges_data g1)).
        { intros f Hf. rewrite T3 in Hf. apply filter_In in Hf. tauto. }
        exists g'. rewrite Eq. split; auto. constructor; auto.
        -- congruence.
        -- exists (fun f => negb (pair_eqb (fst e) (fst f)) && keep f). rewrite T3, Ed. unfold dropped.
           apply filter_filter.
        -- intros f f' Hf Hn Hf'. destruct (Or f Hf) as [->|Hf1].
           ++ apply Min. auto.
           ++ eapply T5; eauto.
        -- right. destruct T6 as [->|(x & X1 & X2 & X3 & X4)].
           ++ exists e. split; auto. split; auto. split.
              ** intros f Hf Hn. destruct (Or f Hf) as [->|]; [apply Qcle_refl|contradiction].
              ** intros Ac. apply (is_dag_false _ lspec) in D as (z & P). apply (Ac z).
                 eapply path_incl; [|exact P]. intros p Hp. rewrite edges_of_data in Hp.
                 apply in_map_iff in Hp as (f & <- & Hf). destruct (Or f Hf) as [->|Hf1]; [left; auto|].
                 right. apply in_map; auto.
           ++ exists x. split; auto. split; auto. split; auto.
              intros f Hf Hn. destruct (Or f Hf) as [->|Hf1]; auto.
Qed.

Lemma edges_data_length g : List.length (edges g) = List.length (edges_data g).
Proof. unfold edges. apply map_length. Qed.

Theorem threshold_till_dag_spec g : wf g -> numeric g ->
  exists g', threshold_till_dag g = (g', Ok tt) /\ till_dag g g'.
Proof. intros W N. apply threshold_loop_spec; auto. rewrite edges_data_length. lia. Qed.

Lemma threshold_acyclic_id g : acyclic (edges g) -> threshold_till_dag g = (g, Ok tt).
Proof.
  intros A. apply (is_dag_acyclic _ lspec) in A. unfold threshold_till_dag.
  destruct (List.length (edges g)); simpl; rewrite A; auto.
Qed.

Lemma threshold_no_weight g : ~ acyclic (edges g) -> ~ numeric g -> threshold_till_dag g = (g, Err TypeError).
Proof.
  intros A N. unfold threshold_till_dag.
  assert (D : is_dag label_eqb (edges g) = false).
  { destruct (is_dag label_eqb (edges g)) eqn:E; auto. apply (is_dag_acyclic _ lspec) in E. contradiction. }
  destruct (numeric_dec g) as [|(u & v & a & I & Na)]; [contradiction|].
  destruct (List.length (edges g)) eqn:L.
  - rewrite edges_data_length in L. apply length_zero_iff_nil in L. rewrite L in I. destruct I.
  - simpl. rewrite D. rewrite (mapM_err _ TypeError); auto.
    + intros [[x y] b] _. simpl. destruct (abs_cases b) as [(z & ->)| ->]; simpl; eauto.
    + exists (u, v, a). split; auto. simpl. rewrite not_numeric_abs; auto.
Qed.

Lemma till_dag_wf g : wf g -> wf (fst (threshold_till_dag g)).
Proof.
  intros W. destruct (is_dag label_eqb (edges g)) eqn:D.
  - apply (is_dag_acyclic _ lspec) in D. rewrite threshold_acyclic_id; auto.
  - destruct (numeric_dec g) as [N|N].
    + destruct (threshold_till_dag_spec g W N) as (g' & -> & T). apply T.
    + rewrite threshold_no_weight; auto.
      * intros A. apply (is_dag_acyclic _ lspec) in A. congruence.
      * intros N'. destruct N as (u & v & a & I & N). destruct (N' u v a I) as (w & Hw). eapply N; eauto.
Qed.

(** ** Histories *)

Lemma sstep_wf g o : wf g -> wf (fst (sstep g o)).
Proof.
  intros W. destruct o; simpl.
  - unfold add_edge. destruct (validate_origin origin); simpl; auto using wf_put_edge.
  - unfold add_edges_from. destruct (validate_origin origin); simpl; auto using wf_put_edges.
  - unfold add_weighted_edges_from. destruct (validate_origin origin); simpl; auto using wf_put_weighted.
  - apply remove_edge_wf; auto.
  - apply remove_edges_from_spec; auto.
  - apply remove_node_wf; auto.
  - apply below_wf; auto.
  - apply till_dag_wf; auto.
Qed.

Lemma srun_wf ops : forall g, wf g -> wf (srun g ops).
Proof. induction ops; simpl; auto using sstep_wf. Qed.

Lemma wf_add_nodes ns : forall g, wf g -> wf (fold_left add_node ns g).
Proof. induction ns; simpl; auto using wf_add_node. Qed.

Lemma set_origins_nodes g o : nodes (set_origins g o) = nodes g.
Proof. unfold nodes, set_origins, dkeys. rewrite map_map. auto. Qed.

Lemma set_origins_attrs g o u v :
  edge_attrs (set_origins g o) u v =
  match edge_attrs g u v with Some a => Some (dset String.eqb a "origin" (AStr o)) | None => None end.
Proof.
  unfold edge_attrs, succ_of, set_origins.
  assert (G : forall h : graph, gget (map (fun us => (fst us, map (fun va => (fst va, dset String.eqb (snd va) "origin" (AStr o))) (snd us))) h) u =
     match gget h u with Some s => Some (map (fun va => (fst va, dset String.eqb (snd va) "origin" (AStr o))) s) | None => None end).
  { induction h as [|[k s] h IH]; simpl; auto. destruct (label_eqb u k); auto. }
  rewrite G. destruct (gget g u) as [s|]; auto. clear.
  induction s as [|[k a] s IH]; simpl; auto. destruct (label_eqb v k); auto.
Qed.

Lemma set_origins_wf g o : wf g -> wf (set_origins g o).
Proof.
  intros W. split; [rewrite set_origins_nodes; apply W|]. rewrite set_origins_nodes.
  intros u s H. apply in_map_iff in H as ([u' s'] & E & H). simpl in E. injection E as -> <-.
  destruct (proj2 W u s' H) as [A B]. split.
  - unfold dkeys. rewrite map_map. auto.
  - intros v a Hv. apply in_map_iff in Hv as ([v' a'] & E & Hv). simpl in E. injection E as -> <-.
    destruct (B v a' Hv). split; auto. apply (dset_NoDup _ sspec); auto.
Qed.

Lemma sm_new_wf ns es o g : sm_new ns es o = Ok g -> wf g.
Proof.
  unfold sm_new. destruct (validate_origin o); [|discriminate]. unfold add_edges_from. simpl.
  pose proof (wf_put_edges es (fold_left add_node ns []) [("origin", AStr "unknown")] (wf_add_nodes ns [] wf_nil)) as W.
  unfold with_origin. simpl.
  destruct (put_edges (fold_left add_node ns []) es [("origin", AStr "unknown")]) as [g' [|]]; [|discriminate].
  intros [= <-]. apply set_origins_wf; auto.
Qed.
