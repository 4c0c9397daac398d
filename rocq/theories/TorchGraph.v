(** * TorchGraph: what torch_numpy returns. *)
From Coq Require Import List Bool Arith ZArith Lia String QArith Qcanon Permutation.
From Verif Require Import Base Names Digraph SmModel SmProofs SmBuild QcX NotearsModel NotearsProofs NotearsThms TorchModel TorchSpec TorchProofs TorchThms.
Import ListNotations.
Local Open Scope string_scope.
Local Open Scope list_scope.
Local Open Scope nat_scope.

(** ** Adding edges one at a time *)
Definition put_one (g : graph) (e : label * label * attrs) : res graph := sm_result (add_edge g (fst (fst e)) (snd (fst e)) "learned" (snd e)).

Lemma put_one_eq g u v a : put_one g (u, v, a) = Ok (put_edge g u v (with_origin a "learned") []).
Proof. reflexivity. Qed.

Lemma put_all es : forall g, wf g -> (forall u v a, In (u, v, a) es -> In u (nodes g) /\ In v (nodes g)) ->
  exists g', foldM put_one es g = Ok g' /\ wf g' /\ nodes g' = nodes g /\
    (forall u v, In (u, v) (edges g') <-> In (u, v) (edges g) \/ In (u, v) (map fst es)) /\
    (forall u v, ~ In (u, v) (map fst es) -> edge_attrs g' u v = edge_attrs g u v) /\
    (NoDup (map fst es) -> forall u v a, In (u, v, a) es -> edge_attrs g' u v = Some (new_attrs g u v (with_origin a "learned") [])).
Proof.
  induction es as [|[[x y] a] es IH]; intros g W H.
  - exists g. cbn. split; auto. split; auto. split; auto. split; [tauto|]. split; auto. tauto.
  - destruct (H x y a (or_introl eq_refl)) as [Hx Hy]. set (g1 := put_edge g x y (with_origin a "learned") []).
    assert (W1 : wf g1) by (apply wf_put_edge; auto).
    assert (N1 : nodes g1 = nodes g) by (apply put_edge_nodes_eq; auto).
    assert (A1 : forall u v, edge_attrs g1 u v = if label_eqb u x && label_eqb v y then Some (new_attrs g x y (with_origin a "learned") []) else edge_attrs g u v)
      by (intros u v; apply put_edge_attrs).
    assert (E1 : forall u v, (u, v) <> (x, y) -> edge_attrs g1 u v = edge_attrs g u v).
    { intros u v N. rewrite A1. destruct (label_eqb_spec u x) as [->|]; [|reflexivity]. destruct (label_eqb_spec v y) as [->|]; [congruence|reflexivity]. }
    assert (E2 : edge_attrs g1 x y = Some (new_attrs g x y (with_origin a "learned") [])).
    { rewrite A1. destruct (label_eqb_spec x x); [|congruence]. destruct (label_eqb_spec y y); [reflexivity|congruence]. }
    destruct (IH g1 W1) as (g' & F & W' & N' & M & O & D).
    { intros u v b I. rewrite N1. eapply H. right. eauto. }
    exists g'. cbn [foldM]. rewrite put_one_eq. fold g1. cbn. split; auto. split; auto. split; [congruence|].
    assert (Ed : forall u v, In (u, v) (edges g1) <-> In (u, v) (edges g) \/ (x, y) = (u, v)).
    { intros u v. rewrite !edges_In by auto. destruct (label_eqb_spec u x) as [->|Nu].
      - destruct (label_eqb_spec v y) as [->|Nv].
        + rewrite E2. split; eauto.
        + rewrite E1 by congruence. split; auto. intros [Q|Q]; auto. congruence.
      - rewrite E1 by congruence. split; auto. intros [Q|Q]; auto. congruence. }
    split; [intros u v; rewrite M, Ed; cbn [fst]; tauto|]. split.
    + intros u v N. rewrite O by tauto. apply E1. intros E. apply N. left. auto.
    + intros ND u v b [[= <- <- <-]|I]; apply NoDup_cons_iff in ND; destruct ND as [Nx ND].
      * rewrite O by auto. auto.
      * rewrite (D ND u v b I). unfold new_attrs. rewrite E1; auto. intros [= -> ->]. apply Nx. apply in_map_iff. exists (x, y, b). auto.
Qed.

Lemma foldM_map {A B S} (f : S -> A -> res S) (h : A -> B) (f' : S -> B -> res S) l : (forall s x, In x l -> f s x = f' s (h x)) ->
  forall s, foldM f l s = foldM f' (map h l) s.
Proof.
  induction l as [|x l IH]; intros H s; cbn; auto. rewrite H by (left; auto). destruct (f' s (h x)); cbn; auto. apply IH. intros. apply H. right. auto.
Qed.

(** ** From a matrix to a graph *)
Lemma flatten_length d M : List.length (flatten d M) = d * d.
Proof. unfold flatten. apply length_blocks. intros. rewrite map_length, seq_length. auto. Qed.
Lemma flatten_entry d M i j : i < d -> j < d -> entry d (flatten d M) i j = M i j.
Proof.
  intros Hi Hj. unfold entry, flatten. rewrite (nth_blocks (fun i => map (M i) (seq 0 d)) d); auto.
  - rewrite nth_map_seq; auto.
  - intros. rewrite map_length, seq_length. auto.
Qed.

Lemma matrix_graph_fun d M : exists g, sm_of_matrix d (flatten d M) = Ok g /\ wf g /\ nodes g = map node (seq 0 d) /\
  (forall u v a, edge_attrs g u v = Some a <->
     exists i j, i < d /\ j < d /\ u = node i /\ v = node j /\ M i j <> 0%Qc /\ a = weight_attrs "unknown" (M i j)).
Proof.
  destruct (matrix_graph d (flatten d M) (flatten_length d M)) as (g & E & W & N & A). exists g. split; [auto|]. split; [auto|]. split; [auto|]. intros u v a. split.
  - intros H. apply A in H. destruct H as (i & j & Hi & Hj & Eu & Ev & Nz & Ea). rewrite flatten_entry in * by auto. exists i, j. auto 10.
  - intros (i & j & Hi & Hj & Eu & Ev & Nz & Ea). apply A. exists i, j. rewrite flatten_entry by auto. auto 10.
Qed.

Definition threshold_step (th : option Qc) (g : graph) : res graph :=
  match th with Some x => if qnz x then sm_result (remove_edges_below_threshold g x) else Ok g | None => Ok g end.

Lemma survives_zero x : survives (Some 0%Qc) x <-> survives None x.
Proof. unfold survives. split; intros [N H]; split; auto; [discriminate|]. intros t [= <-]. apply Qcabs_nonneg. Qed.

Lemma threshold_graph th d M g : sm_of_matrix d (flatten d M) = Ok g ->
  exists g1, threshold_step th g = Ok g1 /\ wf g1 /\ nodes g1 = map node (seq 0 d) /\
  (forall u v a, edge_attrs g1 u v = Some a <->
     exists i j, i < d /\ j < d /\ u = node i /\ v = node j /\ survives th (M i j) /\ a = weight_attrs "unknown" (M i j)).
Proof.
  intros E. destruct (matrix_graph_fun d M) as (g' & E' & W & N & A). rewrite E in E'. injection E' as <-.
  assert (Pl : forall th', (forall x, survives th' x <-> x <> 0%Qc) ->
     forall u v a, edge_attrs g u v = Some a <-> exists i j, i < d /\ j < d /\ u = node i /\ v = node j /\ survives th' (M i j) /\ a = weight_attrs "unknown" (M i j)).
  { intros th' S u v a. rewrite A. split; intros (i & j & H); exists i, j; rewrite S in *; auto. }
  unfold threshold_step. destruct th as [x|].
  2:{ exists g. split; auto. split; auto. split; auto. apply Pl. intros x. unfold survives. split; [tauto|]. intros; split; auto. discriminate. }
  destruct (qnz x) eqn:Q.
  2:{ assert (x = 0%Qc) by (destruct (Qc_eq_dec x 0); auto; apply qnz_iff in n; congruence). subst x. exists g. split; auto. split; auto. split; auto.
      apply Pl. intros x. rewrite survives_zero. unfold survives. split; [tauto|]. intros; split; auto. discriminate. }
  destruct (below_numeric g x W) as (g1 & E1 & W1 & N1 & D1).
  { intros u v a H. apply edges_data_In in H; auto. apply A in H. destruct H as (i & j & _ & _ & _ & _ & _ & ->). exists (M i j). reflexivity. }
  exists g1. rewrite E1. split; [reflexivity|]. split; auto. split; [congruence|]. intros u v a. rewrite <- edges_data_In by auto. rewrite D1, filter_In, edges_data_In by auto.
  rewrite A. split.
  - intros ((i & j & Hi & Hj & Eu & Ev & Nz & ->) & K). exists i, j. split; auto. split; auto. split; auto. split; auto. split; auto.
    split; auto. intros t [= <-]. apply negb_true_iff in K. cbn [snd] in K. unfold Qcltb in K. change (wt (weight_attrs "unknown" (M i j))) with (M i j) in K.
    destruct (Qclt_le_dec (Qcabs (M i j)) x); [discriminate|auto].
  - intros (i & j & Hi & Hj & Eu & Ev & (Nz & S) & ->). split; [exists i, j; auto 10|]. apply negb_true_iff. cbn [snd]. unfold Qcltb.
    change (wt (weight_attrs "unknown" (M i j))) with (M i j). destruct (Qclt_le_dec (Qcabs (M i j)) x) as [L|]; auto.
    exfalso. apply (Qclt_not_le _ _ L). auto.
Qed.

Lemma index_of_node_eq i : index_of_node (node i) = i.
Proof. unfold index_of_node, node. lia. Qed.

Lemma effects_result d g1 M eff (keep : Qc -> Prop) : wf g1 -> nodes g1 = map node (seq 0 d) ->
  (forall u v a, edge_attrs g1 u v = Some a <->
     exists i j, i < d /\ j < d /\ u = node i /\ v = node j /\ keep (M i j) /\ a = weight_attrs "unknown" (M i j)) ->
  exists g2, add_effects eff g1 = Ok g2 /\ wf g2 /\ nodes g2 = map node (seq 0 d) /\ effects_graph g2 d node M eff keep.
Proof.
  intros W N A. set (h := fun e : label * label * attrs =>
      (fst e, [("weight", weight_of (snd e)); ("mean_effect", ANum (eff (index_of_node (fst (fst e))) (index_of_node (snd (fst e)))))])).
  assert (In1 : forall u v a, In (u, v, a) (edges_data g1) -> exists i j, i < d /\ j < d /\ u = node i /\ v = node j /\ keep (M i j) /\ a = weight_attrs "unknown" (M i j)).
  { intros u v a H. apply edges_data_In in H; auto. apply A; auto. }
  assert (Nn : forall i, i < d -> In (node i) (nodes g1)) by (intros i Hi; rewrite N; apply in_map, in_seq; lia).
  destruct (put_all (map h (edges_data g1)) g1 W) as (g2 & F & W2 & N2 & M2 & O2 & D2).
  { intros u v a H. apply in_map_iff in H. destruct H as ([[x y] b] & E & I). injection E as -> -> _.
    apply In1 in I. destruct I as (i & j & Hi & Hj & -> & -> & _). auto. }
  exists g2. split.
  { unfold add_effects. rewrite (foldM_map _ h put_one); auto. intros s [[x y] b] I. apply In1 in I. destruct I as (i & j & _ & _ & -> & -> & _ & ->). reflexivity. }
  split; auto. split; [congruence|].
  assert (Mf : map fst (map h (edges_data g1)) = edges g1) by (rewrite map_map; reflexivity).
  rewrite Mf in *. split; [rewrite N2, N; apply Permutation_refl|]. split; [apply edges_NoDup; auto|]. split.
  - intros u v. rewrite M2. rewrite edges_In by auto. split.
    + intros [(a & H)|(a & H)]; apply A in H; destruct H as (i & j & H1 & H2 & H3 & H4 & H5 & _); exists i, j; auto.
    + intros (i & j & H1 & H2 & -> & -> & K). left. exists (weight_attrs "unknown" (M i j)). apply A. exists i, j. auto 10.
  - intros i j Hi Hj K. assert (Ea : edge_attrs g1 (node i) (node j) = Some (weight_attrs "unknown" (M i j))) by (apply A; exists i, j; auto 10).
    assert (I : In (node i, node j, weight_attrs "unknown" (M i j)) (edges_data g1)) by (apply edges_data_In; auto).
    eexists. split.
    + apply (D2 (edges_NoDup g1 W)). apply in_map_iff. exists (node i, node j, weight_attrs "unknown" (M i j)). split; [reflexivity|auto].
    + intros k. cbn [snd fst]. unfold new_attrs. rewrite Ea. rewrite !index_of_node_eq. reflexivity.
Qed.

(** ** Sums over groups *)
Lemma add_both o ex (M : qmat) x y : add_cols o ex (add_rows o ex M) x y =
  block_sum M (if x =? o then o :: ex else [x]) (if y =? o then o :: ex else [y]).
Proof.
  unfold block_sum, add_cols, add_rows. destruct (Nat.eqb_spec y o) as [->|Ny]; destruct (Nat.eqb_spec x o) as [->|Nx]; rewrite ?Qsum_cons, ?Qsum_nil; try ring.
  - rewrite (Qsum_add (fun e => M o e) (fun e => Qsum (fun e' => M e' e) ex)).
    rewrite (Qsum_ext (fun x => Qsum (fun y => M x y) (o :: ex)) (fun x => (M x o + Qsum (fun y => M x y) ex)%Qc) ex) by (intros; apply Qsum_cons).
    rewrite (Qsum_add (fun e => M e o)). rewrite (Qsum_swap (fun x y => M x y) ex ex). ring.
  - rewrite (Qsum_ext (fun x => Qsum (fun y => M x y) [y]) (fun x => M x y) ex) by (intros; rewrite Qsum_cons, Qsum_nil; ring). ring.
Qed.

Lemma collapse_sum dts : forall M, NoDup (map dt_idx dts) -> Forall good_dt dts -> fresh_columns dts ->
  forall a b, fold_left (fun M dt => collapse_adj dt M) dts M a b = block_sum M (ecols dts a) (ecols dts b).
Proof.
  induction dts as [|dt dts IH]; intros M N G F a b.
  - cbn [fold_left]. unfold ecols, columns_of, block_sum. cbn [map dget]. rewrite !Qsum_cons, !Qsum_nil. ring.
  - cbn in N. apply NoDup_cons_iff in N. destruct N as [Nd N]. apply Forall_cons_iff in G. destruct G as [Gd G].
    assert (F' : fresh_columns dts) by (intros d x Hd Hx Nx I; apply (F d x (or_intror Hd) Hx Nx); right; auto).
    cbn [fold_left]. rewrite IH by auto.
    set (g := fun x => if x =? dt_idx dt then dt_columns dt else [x]).
    assert (E : forall x y, collapse_adj dt M x y = block_sum M (g x) (g y)).
    { intros x y. unfold g, collapse_adj, dt_columns, good_dt in *.
      assert (T : block_sum M (if x =? dt_idx dt then [dt_idx dt] else [x]) (if y =? dt_idx dt then [dt_idx dt] else [y]) = M x y).
      { assert (K : forall z, (if z =? dt_idx dt then [dt_idx dt] else [z]) = [z]) by (intros z; destruct (Nat.eqb_spec z (dt_idx dt)); subst; auto).
        rewrite !K. unfold block_sum. rewrite !Qsum_cons, !Qsum_nil. ring. }
      destruct (dt_kind dt); auto. destruct Gd as (ex & Eg & _). rewrite Eg. apply add_both. }
    assert (Eg : forall c, flat_map g (ecols dts c) = ecols (dt :: dts) c).
    { intros c. rewrite ecols_cons. destruct (Nat.eqb_spec c (dt_idx dt)) as [->|Nc].
      - rewrite ecols_none by auto. cbn. unfold g. rewrite Nat.eqb_refl. apply app_nil_r.
      - assert (No : ~ In (dt_idx dt) (ecols dts c)).
        { destruct (in_dec Nat.eq_dec c (map dt_idx dts)) as [Ic|Ic].
          - intros I. assert (Hd : exists d', In d' dts /\ dt_idx d' = c /\ dt_columns d' = ecols dts c).
            { unfold ecols. pose proof (columns_of_key (map (fun dt => (dt_idx dt, dt_columns dt)) dts) c) as P. rewrite map_map in P. cbn [fst] in P.
              specialize (P Ic). apply in_map_iff in P. destruct P as (d' & [= E1 E2] & Hd'). exists d'. auto. }
            destruct Hd as (d' & Hd & Ei & Ec). apply (F d' (dt_idx dt) (or_intror Hd)); [congruence|congruence|left; auto].
          - rewrite ecols_none by auto. intros [I|[]]. congruence. }
        clear - No. induction (ecols dts c) as [|x l IHl]; cbn; auto. rewrite IHl by (intros I; apply No; right; auto).
        unfold g. destruct (Nat.eqb_spec x (dt_idx dt)) as [->|]; [exfalso; apply No; left; auto|auto]. }
    rewrite <- !Eg. unfold block_sum. rewrite Qsum_flat_map. apply Qsum_ext. intros x _.
    rewrite (Qsum_ext _ (fun y => Qsum (fun x' => Qsum (fun y' => M x' y') (g y)) (g x))) by (intros y _; apply E).
    rewrite (Qsum_swap (fun y x' => Qsum (fun y' => M x' y') (g y))). apply Qsum_ext. intros x' _. rewrite Qsum_flat_map. auto.
Qed.

Lemma modify_collapse dts M : fold_left (fun M dt => modify_h dt M) dts M = fold_left (fun M dt => collapse_adj dt M) dts M.
Proof. reflexivity. Qed.
