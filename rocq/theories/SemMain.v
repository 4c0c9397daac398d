(** * SemMain: sem_generator returns data of the structural equations. *)
From Coq Require Import List Bool Arith ZArith Lia String QArith Qcanon Permutation Reals Lra.
From Verif Require Import Base Names Digraph NetModel SmModel SmProofs QcX NotearsModel NotearsProofs TorchModel DiscModel MapperModel MapperProofs MapperThms AcycLink OrdProofs PoisModel PoisProofs GenModel SemModel SemProofs SemThms SemEq.
Import ListNotations.
Local Open Scope string_scope.
Local Open Scope list_scope.
Local Open Scope nat_scope.

(** ** Specification *)

(** Every node once, after its parents. *)
Definition topological (g : graph) (l : list label) : Prop :=
  Permutation l (nodes g) /\ forall l1 v l2, l = l1 ++ v :: l2 -> forall u, In (u, v) (edges g) -> In u l1.

(** The value in row [i] of the column called [name]. *)
Definition cell (f : sframe) (i : nat) (name : label) : Qc :=
  match dget label_eqb (combine (s_cols f) (nth i (s_rows f) [])) name with Some q => q | None => 0%Qc end.

Definition has_parents (g : graph) (v : label) : bool := existsb (fun e => label_eqb (snd e) v) (edges g).
(** The features of the parents of [v]. *)
Definition parent_features (g : graph) (ts : list (label * vtype)) (v : label) : list label :=
  flat_map spec_features (filter (fun vt => existsb (pair_eqb (fst vt, v)) (edges g)) ts).

(** An entry of the argument [distributions], with its default. *)
Definition setting (ds : option (list (string * dist))) (k : string) (default : dist) : dist :=
  match ds with None => default | Some l => match dget String.eqb l k with Some x => x | None => default end end.
Definition zero_inflation (ds : option (list (string * dist))) : Qc :=
  match setting ds "count" (DNum (Q2Qc (1 # 20))) with DNum q => q | DName _ => 0%Qc end.

(** [b] holds the coefficients: given weights, or draws for edges without weight; between categorical
    variables a given weight is used for one pair of categories, the one with the smallest draw. *)
Definition smallest_of (r c : nat) (mask : nat -> nat -> Qc) (i j : nat) : Prop := forall i' j', i' < r -> j' < c -> (mask i j <= mask i' j')%Qc.
Definition coefficients (dr : sdraws) (g : graph) (ts : list (label * vtype)) (b : label -> label -> Qc) : Prop :=
  forall u v a tu tv, In (u, v, a) (edges_data g) -> In (u, tu) ts -> In (v, tv) ts ->
    let r := List.length (spec_features (u, tu)) in
    let c := List.length (spec_features (v, tv)) in
    let coef i j := b (nth i (spec_features (u, tu)) u) (nth j (spec_features (v, tv)) v) in
    match weight_of a with
    | ANum q => (r = 1 -> c = 1 -> coef 0 0 = q) /\
        (1 < r * c -> forall i j, i < r -> j < c -> (smallest_of r c (sd_mask dr u v) i j -> coef i j = q) /\ (~ smallest_of r c (sd_mask dr u v) i j -> coef i j = 0%Qc))
    | ANone => forall i j, i < r -> j < c -> coef i j = sd_weight dr u v i j
    | _ => False
    end.

(** Arguments that are documented as valid. *)
Definition accepted (g : graph) (noise_std : Qc) (ds : option (list (string * dist))) : Prop :=
  (0 <= noise_std)%Qc /\
  (exists s, setting ds "continuous" (DName "gaussian") = DName s /\ In s ["gaussian"; "normal"; "student-t"; "exponential"; "gumbel"]) /\
  (exists s, setting ds "binary" (DName "logit") = DName s /\ In s ["probit"; "normal"; "logit"]) /\
  (exists s, setting ds "categorical" (DName "logit") = DName s /\ In s ["probit"; "normal"; "logit"; "gumbel"]) /\
  (exists s, setting ds "weight" (DName "uniform") = DName s /\ In s ["gaussian"; "normal"; "uniform"]) /\
  (exists s, setting ds "intercept" (DName "uniform") = DName s /\ In s ["gaussian"; "normal"; "uniform"]) /\
  (exists q, setting ds "count" (DNum (Q2Qc (1 # 20))) = DNum q /\ (0 <= q)%Qc /\ (q <= 1)%Qc) /\
  (forall u v a, In (u, v, a) (edges_data g) -> weight_of a = ANone \/ exists q, weight_of a = ANum q).

(** ** Distributions *)
Lemma setting_ok ds k x : (match ds with Some l => NoDup (map fst l) | None => True end) -> dget String.eqb default_distributions k = Some x ->
  dist_of (set_distributions ds) k = Ok (setting ds k x).
Proof.
  intros N Hx. unfold dist_of, set_distributions, setting. destruct ds as [l|]; [|rewrite Hx; auto].
  change (fold_left _ l default_distributions) with (dupdate String.eqb default_distributions l). rewrite (dget_dupdate _ String.eqb_spec), Hx.
  replace (dget String.eqb (List.rev l) k) with (dget String.eqb l k); [destruct (dget String.eqb l k); auto|].
  destruct (dget String.eqb l k) as [y|] eqn:E.
  - symmetry. apply (In_dget _ String.eqb_spec); [unfold dkeys; rewrite map_rev; apply NoDup_rev; auto|]. apply in_rev. rewrite rev_involutive. apply (dget_In _ String.eqb_spec). auto.
  - symmetry. apply (dget_None _ String.eqb_spec). apply (dget_None _ String.eqb_spec) in E. intros Q. apply E. unfold dkeys in *. rewrite map_rev in Q. apply in_rev in Q. auto.
Qed.

(** ** Weights *)
Lemma fold_min l : forall a, let m := fold_left (fun m x => if qlt x m then x else m) l a in (m <= a)%Qc /\ (forall x, In x l -> (m <= x)%Qc) /\ (m = a \/ In m l).
Proof.
  induction l as [|x l IH]; intros a; cbn [fold_left]; [cbv zeta; split; [apply Qcle_refl|]; split; [intros x []|auto]|]. cbv zeta.
  destruct (qlt x a) eqn:Q.
  - apply qlt_iff in Q. destruct (IH x) as (H1 & H2 & H3). split; [apply Qcle_trans with x; auto; apply Qclt_le_weak; auto|]. split; [intros y [<-|Hy]; auto|]. right. destruct H3 as [->|H3]; [left|right]; auto.
  - apply qlt_false in Q. destruct (IH a) as (H1 & H2 & H3). split; auto. split; [intros y [<-|Hy]; auto; apply Qcle_trans with a; auto|]. destruct H3 as [H3|H3]; [left|right; right]; auto.
Qed.

Lemma block_min_spec r c mask i j : i < r -> j < c -> mask i j = block_min r c mask <-> smallest_of r c mask i j.
Proof.
  intros Hi Hj. unfold block_min. set (l := flat_map (fun i => map (mask i) (seq 0 c)) (seq 0 r)).
  assert (Il : forall i' j', i' < r -> j' < c -> In (mask i' j') l). { intros i' j' H1 H2. apply in_flat_map. exists i'. split; [apply in_seq; lia|]. apply in_map. apply in_seq. lia. }
  destruct (fold_min l (nth 0 l 0%Qc)) as (_ & H2 & H3). split.
  - intros E i' j' Hi' Hj'. rewrite E. apply H2. auto.
  - intros S. set (mn := fold_left _ l _) in *. apply Qcle_antisym; [|apply H2; auto].
    assert (M : In mn l). { destruct H3 as [->|]; auto. apply nth_In. specialize (Il i j Hi Hj). destruct l; [destruct Il|cbn; lia]. }
    apply in_flat_map in M. destruct M as (i' & Hi' & M). apply in_map_iff in M. destruct M as (j' & <- & Hj'). apply in_seq in Hi', Hj'. apply S; lia.
Qed.

Section Weights.
Context (ts : list (label * vtype)) (m : mapper) (ix : label -> list nat) (GD : good ts m ix) (dr : sdraws) (wd : dist).

Definition block_ok (u v : label) (wt : aval) (r c : nat) (vals : nat -> nat -> Qc) : Prop :=
  match wt with
  | ANum q => (r = 1 -> c = 1 -> vals 0 0 = q) /\
      (1 < r * c -> forall i j, i < r -> j < c -> (smallest_of r c (sd_mask dr u v) i j -> vals i j = q) /\ (~ smallest_of r c (sd_mask dr u v) i j -> vals i j = 0%Qc))
  | ANone => forall i j, vals i j = sd_weight dr u v i j
  | _ => False
  end.

Lemma ix_pos v t : In (v, t) ts -> 0 < List.length (ix v).
Proof. intros H. destruct (gd_ix ts m ix GD v t H) as (_ & _ & N & _). destruct (ix v); [congruence|cbn; lia]. Qed.

Lemma edge_block_spec w u v wt w' tu tv : In (u, tu) ts -> In (v, tv) ts -> edge_block dr wd m w (u, v, wt) = Ok w' ->
  exists vals, w' = set_block w (ix u) (ix v) vals /\ block_ok u v wt (List.length (ix u)) (List.length (ix v)) vals.
Proof.
  intros Hu Hv E. unfold edge_block in E. destruct (gd_ix ts m ix GD u tu Hu) as (_ & Eu & _ & _). destruct (gd_ix ts m ix GD v tv Hv) as (_ & Ev & _ & _). rewrite Eu, Ev in E. cbn [bind] in E. pose proof (ix_pos u tu Hu) as Pu. pose proof (ix_pos v tv Hv) as Pv.
  destruct wt as [q| | |]; try discriminate.
  - destruct (Nat.eqb_spec (List.length (ix u) * List.length (ix v)) 1) as [L|L].
    + injection E as <-. eexists. split; [reflexivity|]. cbn [block_ok]. split; auto. lia.
    + replace (1 <? List.length (ix u) * List.length (ix v)) with true in E by (symmetry; apply Nat.ltb_lt; nia). injection E as <-. eexists. split; [reflexivity|]. cbn [block_ok]. split; [intros H1 H2; rewrite H1, H2 in L; cbn in L; lia|].
      intros _ i j Hi Hj. rewrite <- (block_min_spec _ _ _ i j Hi Hj). unfold indicator. destruct (Qc_eq_bool _ _) eqn:Q.
      * apply Qc_eq_bool_correct in Q. split; [intros _; ring|congruence].
      * split; [intros Q'; rewrite Q' in Q; exfalso; assert (T : Qc_eq_bool (block_min (List.length (ix u)) (List.length (ix v)) (sd_mask dr u v)) (block_min (List.length (ix u)) (List.length (ix v)) (sd_mask dr u v)) = true) by (unfold Qc_eq_bool; destruct (Qc_eq_dec _ _); congruence); congruence|intros _; ring].
  - destruct (weight_name wd); [|discriminate]. injection E as <-. eexists. split; [reflexivity|]. cbn. auto.
Qed.

Lemma set_block_in w u v tu tv vals i j : In (u, tu) ts -> In (v, tv) ts -> i < List.length (ix u) -> j < List.length (ix v) -> set_block w (ix u) (ix v) vals (nth i (ix u) 0) (nth j (ix v) 0) = vals i j.
Proof. intros Hu Hv Hi Hj. unfold set_block. rewrite !position_nth; auto; eapply ix_nodup; eauto. Qed.
Lemma set_block_out w u v tu tv vals u' v' tu' tv' a b : In (u, tu) ts -> In (v, tv) ts -> In (u', tu') ts -> In (v', tv') ts -> (u, v) <> (u', v') -> In a (ix u') -> In b (ix v') -> set_block w (ix u) (ix v) vals a b = w a b.
Proof.
  intros Hu Hv Hu' Hv' N Ha Hb. unfold set_block. destruct (position a (ix u)) as [i|] eqn:E1; auto. destruct (position b (ix v)) as [j|] eqn:E2; auto. exfalso. apply N.
  apply position_some in E1, E2. destruct E1 as [L1 <-], E2 as [L2 <-]. f_equal; [eapply (ix_disjoint ts m ix GD u tu u' tu'); eauto|eapply (ix_disjoint ts m ix GD v tv v' tv'); eauto]; apply nth_In; auto.
Qed.

Lemma fold_blocks es : NoDup (map fst es) -> (forall u v wt, In (u, v, wt) es -> (exists tu, In (u, tu) ts) /\ (exists tv, In (v, tv) ts)) -> forall w w', foldM (edge_block dr wd m) es w = Ok w' ->
  (forall u v tu tv i j, In (u, tu) ts -> In (v, tv) ts -> ~ In (u, v) (map fst es) -> i < List.length (ix u) -> j < List.length (ix v) -> w' (nth i (ix u) 0) (nth j (ix v) 0) = w (nth i (ix u) 0) (nth j (ix v) 0)) /\
  (forall u v wt, In (u, v, wt) es -> exists vals, block_ok u v wt (List.length (ix u)) (List.length (ix v)) vals /\ forall i j, i < List.length (ix u) -> j < List.length (ix v) -> w' (nth i (ix u) 0) (nth j (ix v) 0) = vals i j).
Proof.
  induction es as [|[[u0 v0] wt0] es IH]; intros N T w w' F; cbn [foldM] in F.
  - injection F as <-. split; auto. intros u v wt [].
  - cbn [map fst] in N. inversion N as [|? ? N1 N2]; subst. destruct (T u0 v0 wt0 (or_introl eq_refl)) as [(tu0 & Tu) (tv0 & Tv)]. destruct (edge_block dr wd m w (u0, v0, wt0)) as [w1|e] eqn:E; cbn [bind] in F; [|discriminate].
    destruct (edge_block_spec w u0 v0 wt0 w1 tu0 tv0 Tu Tv E) as (vals & -> & B). destruct (IH N2) with (w := set_block w (ix u0) (ix v0) vals) (w' := w') as [I1 I2]; auto. { intros u v wt H. apply (T u v wt). right; auto. }
    split.
    + intros u v tu tv i j Hu Hv Hn Hi Hj. cbn [map fst In] in Hn. rewrite (I1 u v tu tv) by tauto. apply (set_block_out w u0 v0 tu0 tv0 vals u v tu tv); auto; apply nth_In; auto.
    + intros u v wt [[= <- <- <-]|H].
      * exists vals. split; auto. intros i j Hi Hj. rewrite (I1 u0 v0 tu0 tv0) by auto. eapply set_block_in; eauto.
      * apply I2. auto.
Qed.

Lemma fold_blocks_ok es : (forall u v wt, In (u, v, wt) es -> (exists tu, In (u, tu) ts) /\ (exists tv, In (v, tv) ts) /\ (wt = ANone \/ exists q, wt = ANum q)) -> weight_name wd = true -> forall w, exists w', foldM (edge_block dr wd m) es w = Ok w'.
Proof.
  intros T Hw. induction es as [|[[u v] wt] es IH]; intros w; cbn [foldM]; eauto. destruct (T u v wt (or_introl eq_refl)) as ((tu & Tu) & (tv & Tv) & Hwt).
  assert (E : exists w1, edge_block dr wd m w (u, v, wt) = Ok w1).
  { unfold edge_block. destruct (gd_ix ts m ix GD u tu Tu) as (_ & -> & _ & _). destruct (gd_ix ts m ix GD v tv Tv) as (_ & -> & _ & _). cbn [bind]. destruct Hwt as [->|(q & ->)]; [rewrite Hw; eauto|]. destruct (_ =? 1); eauto. destruct (1 <? _); eauto. }
  destruct E as (w1 & ->). cbn [bind]. apply IH. intros u' v' wt' H. apply (T u' v' wt'). right. auto.
Qed.
End Weights.

(** ** Names and positions *)
Fixpoint lpos (l : list label) (f : label) : nat := match l with [] => 0 | x :: r => if label_eqb x f then 0 else S (lpos r f) end.
Lemma lpos_nth l f : forall j, NoDup l -> nth_error l j = Some f -> lpos l f = j.
Proof.
  induction l as [|x l IH]; intros j N E; [destruct j; discriminate|]. inversion N as [|? ? N1 N2]; subst. cbn [lpos]. destruct j as [|j]; cbn in E.
  - injection E as ->. destruct (label_eqb_spec f f); congruence.
  - destruct (label_eqb_spec x f) as [->|]; [exfalso; apply N1; eapply nth_error_In; eauto|]. f_equal. auto.
Qed.

Lemma combine_fst {A B} (l : list A) (r : list B) : List.length r = List.length l -> map fst (combine l r) = l.
Proof. revert r. induction l as [|a l IH]; intros [|b r] H; cbn in *; try discriminate; auto. f_equal. apply IH. lia. Qed.

Lemma combine_In_nth (l : list label) (r : list Qc) (f : label) : forall j, List.length r = List.length l -> nth_error l j = Some f -> In (f, nth j r 0%Qc) (combine l r).
Proof. revert r. induction l as [|a l IH]; intros [|b r] j L E; cbn in L; try discriminate; [destruct j; discriminate|]. destruct j; cbn in *; [injection E as ->; auto|]. right. apply IH; auto. Qed.

Lemma cell_frame m n x i j f : NoDup (feature_list m) -> i < n -> nth_error (feature_list m) j = Some f -> cell (to_frame m n x) i f = x i j.
Proof.
  intros N Hi E. unfold cell, to_frame. cbn [s_cols s_rows]. rewrite nth_map_seq by auto. assert (Hj : j < n_features m) by (apply nth_error_Some; congruence).
  assert (L : List.length (map (x i) (seq 0 (n_features m))) = List.length (feature_list m)) by (rewrite map_length, seq_length; auto).
  rewrite (In_dget _ label_eqb_spec _ f (nth j (map (x i) (seq 0 (n_features m))) 0%Qc)); [apply nth_map_seq; auto| |apply combine_In_nth; auto]. unfold dkeys. rewrite combine_fst; auto.
Qed.

(** ** The generator *)
Lemma texts_inj ts : NoDup (map fst (texts ts)) -> NoDup (map fst ts).
Proof. unfold texts. rewrite map_map. cbn [fst]. auto. Qed.

Lemma validated ns default s ts : validate_schema ns default s = Ok (texts ts) -> (forall v, In v ns <-> exists t, In (v, t) ts) /\ positive_cards ts.
Proof.
  intros V. destruct (validate_exact ns default s) as [[[_ H] (r & E & C)]|[_ E]]; [|congruence]. rewrite V in E. injection E as <-. destruct C as [_ C]. split.
  - intros v. split.
    + intros Hv. assert (Q : In (v, type_of default s v) (texts ts)) by (apply C; auto). unfold texts in Q. apply in_map_iff in Q. destruct Q as ([v' t] & Q & Ht). injection Q as -> _. eauto.
    + intros (t & Ht). assert (Q : In (v, type_text t) (texts ts)) by (unfold texts; apply in_map_iff; exists (v, t); auto). apply C in Q. tauto.
  - intros v k Hk. assert (Q : In (v, type_text (TCategorical k)) (texts ts)) by (unfold texts; apply in_map_iff; exists (v, TCategorical k); auto). apply C in Q. destruct Q as [Q1 Q2].
    destruct k; [|lia]. exfalso. destruct (H v Q1) as [_ H2]. rewrite <- Q2 in H2. assert (A : has_cardinality (type_text (TCategorical 0)) = true). { apply has_cardinality_spec, H2. apply contains_spec. apply text_cat. }
    vm_compute in A. discriminate A.
Qed.

Lemma has_parents_root g v : has_parents g v = negb (root g v).
Proof.
  unfold has_parents, root, preds. induction (edges g) as [|e l IH]; cbn [existsb filter map]; auto. destruct (label_eqb (snd e) v); cbn [map orb negb]; auto.
Qed.

Lemma preds_perm {B} (g : graph) (ts : list (label * vtype)) (ix : label -> list B) v : wf g -> NoDup (map fst ts) -> (forall u w, In (u, w) (edges g) -> exists tu, In (u, tu) ts) ->
  Permutation (flat_map ix (preds g v)) (flat_map (fun vt => ix (fst vt)) (filter (fun vt : label * vtype => existsb (pair_eqb (fst vt, v)) (edges g)) ts)).
Proof.
  intros W N T. set (l := filter _ ts). assert (E : flat_map (fun vt : label * vtype => ix (fst vt)) l = flat_map ix (map fst l)) by (rewrite flat_map_concat_map, (flat_map_concat_map ix), map_map; auto).
  rewrite E. apply Permutation_flat_map. apply NoDup_Permutation.
  - unfold preds. pose proof (edges_NoDup g W) as Ne. clear - Ne. induction (edges g) as [|[a b] es IH]; cbn [filter map]; [constructor|]. inversion Ne as [|? ? N1 N2]; subst. cbn [snd]. destruct (label_eqb_spec b v) as [->|]; auto. cbn [map fst]. constructor; auto.
    intros Q. apply in_map_iff in Q. destruct Q as ([a' b'] & E & Q). apply filter_In in Q. destruct Q as [Q1 Q2]. cbn [fst snd] in *. destruct (label_eqb_spec b' v); [|discriminate]. subst. auto.
  - unfold l. clear - N. induction ts as [|a ts IH]; cbn [filter map]; [constructor|]. cbn [map] in N. inversion N as [|? ? N1 N2]; subst. destruct (existsb _ _); auto. cbn [map]. constructor; auto. intros Q. apply N1. apply in_map_iff in Q. destruct Q as (x & <- & Q). apply filter_In in Q. apply in_map. tauto.
  - intros u. rewrite preds_in. split.
    + intros H. destruct (T u v H) as (tu & Tu). apply in_map_iff. exists (u, tu). split; auto. unfold l. apply filter_In. split; auto. apply existsb_exists. exists (u, v). split; auto. cbn [fst]. destruct (pair_eqb_spec (u, v) (u, v)); congruence.
    + intros H. apply in_map_iff in H. destruct H as ([u' t] & <- & H). apply filter_In in H. destruct H as [_ H]. apply existsb_exists in H. destruct H as (e & He & Q). destruct (pair_eqb_spec (fst (u', t), v) e); [subst; auto|discriminate].
Qed.

Section Main.
Context (order : list string) (topo : list label) (dr : sdraws) (g : graph) (s : schema) (default : string) (noise_std : Qc) (n : nat) (ds : option (list (string * dist))) (intercept : bool) (ts : list (label * vtype)).
Hypothesis Po : Permutation order PERMISSIBLE_TYPES.
Hypothesis W : wf g.
Hypothesis Ac : acyclic (edges g).
Hypothesis V : validate_schema (nodes g) default s = Ok (texts ts).
Hypothesis NC : no_clash ts.
Hypothesis Nds : match ds with Some l => NoDup (map fst l) | None => True end.
Hypothesis Tp : topological g topo.
Hypothesis Up : forall v i, (0 <= sd_poisson dr v i)%R /\ (sd_poisson dr v i < 1)%R.

Local Notation sem junk := (sem_generator order topo junk dr g s default noise_std n ds intercept).

Lemma setup : exists m ix, init_sem order g s default = Ok m /\ good ts m ix.
Proof.
  destruct (validated _ _ _ _ V) as [_ Pc]. destruct (mapper_facts order ts Po NC Pc) as (m & ix & E & GD). exists m, ix. split; auto. unfold init_sem. apply (is_dag_acyclic label_eqb label_eqb_spec) in Ac. rewrite Ac, V. cbn [negb bind]. auto.
Qed.

Lemma typed v : In v (nodes g) <-> exists t, In (v, t) ts.
Proof. apply (validated _ _ _ _ V). Qed.
Lemma typed_pred u v : In (u, v) (edges g) -> exists tu, In (u, tu) ts.
Proof. intros H. apply typed. apply (edges_nodes g u v W H). Qed.

Definition start (m : mapper) (junk : qmat) : qmat := if intercept then (fun i j => if j =? n_features m then 1%Qc else junk i j) else junk.
Definition extra_of (m : mapper) : list nat := if intercept then [n_features m] else [].

Lemma sem_unfold m ix junk : init_sem order g s default = Ok m -> good ts m ix ->
  sem junk = (do w <- weight_matrix dr (setting ds "weight" (DName "uniform")) (setting ds "intercept" (DName "uniform")) intercept m g;
              do r <- foldM (node_step dr (set_distributions ds) noise_std n (dot_means n w) g m (extra_of m)) topo (start m junk); Ok (to_frame m n r)).
Proof.
  intros E GD. unfold sem_generator. rewrite E. cbn [bind]. rewrite (setting_ok ds "weight" (DName "uniform") Nds eq_refl), (setting_ok ds "intercept" (DName "uniform") Nds eq_refl). cbn [bind]. unfold start, extra_of. destruct intercept; reflexivity.
Qed.

Lemma dot_local w x y v ps js : same_on n ps x y -> dot_means n w x v ps js = dot_means n w y v ps js.
Proof. intros S. unfold dot_means. f_equal. apply map_ext. intros j. apply map_ext_in. intros i Hi. apply in_seq in Hi. apply Qsum_ext. intros p Hp. rewrite (S i p); auto. lia. Qed.
Lemma dot_len w x v ps js mu : dot_means n w x v ps js = Ok mu -> List.length mu = List.length js.
Proof. unfold dot_means. intros [= <-]. rewrite map_length. auto. Qed.
Lemma extra_big m j : In j (extra_of m) -> n_features m <= j.
Proof. unfold extra_of. destruct intercept; cbn; [intros [<-|[]]; auto|intros []]. Qed.

Theorem sem_independent junk junk' : sem junk = sem junk'.
Proof.
  destruct setup as (m & ix & E & GD). rewrite !(sem_unfold m ix) by auto. destruct (weight_matrix _ _ _ _ _ _) as [w|e]; cbn [bind]; auto.
  apply (run_same ts m ix GD dr (set_distributions ds) noise_std n (dot_means n w) g (extra_of m)); auto using dot_local, extra_big, typed.
  - apply dot_len.
  - intros u v. apply typed_pred.
  - apply Tp.
  - apply Tp.
  - intros i j Hi Hj. unfold start, extra_of in *. destruct intercept; [|destruct Hj]. destruct Hj as [<-|[]]. rewrite Nat.eqb_refl. auto.
Qed.

Lemma names_ok d l : (exists x, d = DName x /\ In x l) -> incl l known_distributions -> exists x, d = DName x /\ In x known_distributions.
Proof. intros (x & E & H) I. eauto. Qed.

Theorem sem_accepted junk : accepted g noise_std ds -> exists df, sem junk = Ok df.
Proof.
  intros (Hn & Hc & Hb & Hk & Hw & Hi & (q & Hq & Q0 & Q1) & He). destruct setup as (m & ix & E & GD). rewrite (sem_unfold m ix) by auto.
  assert (WN : forall d, (exists x, d = DName x /\ In x ["gaussian"; "normal"; "uniform"]) -> weight_name d = true). { intros d (x & -> & [<-|[<-|[<-|[]]]]); reflexivity. }
  assert (Ew : exists w, weight_matrix dr (setting ds "weight" (DName "uniform")) (setting ds "intercept" (DName "uniform")) intercept m g = Ok w).
  { unfold weight_matrix. destruct (fold_blocks_ok ts m ix GD dr (setting ds "weight" (DName "uniform")) (edges_weight g)) with (w := fun _ _ : nat => 0%Qc) as (w & ->); auto.
    - intros u v wt H. unfold edges_weight in H. apply in_map_iff in H. destruct H as ([[u' v'] a] & Q & H). cbn [fst snd] in Q. injection Q as -> -> <-. assert (Huv : In (u, v) (edges g)) by (unfold edges; apply in_map_iff; exists (u, v, a); auto). destruct (edges_nodes g u v W Huv) as [Hu Hv].
      split; [apply typed; auto|]. split; [apply typed; auto|]. apply (He u v a H).
    - cbn [bind]. destruct intercept; eauto. rewrite WN by auto. eauto. }
  destruct Ew as (w & ->). cbn [bind].
  destruct (run_ok ts m ix GD dr (set_distributions ds) noise_std n (dot_means n w) g (extra_of m)) with (topo := topo) (x := start m junk) as (x' & ->).
  - intros u v. apply typed_pred.
  - apply typed.
  - apply Tp.
  - intros x v t Ht. unfold dot_means. assert (Li : List.length (ix v) = List.length (spec_features (v, t))) by (eapply ix_length; eauto). set (mu := map _ (ix v)). exists mu. cut (exists cs, node_value dr (set_distributions ds) noise_std n g v t mu = Ok cs); [intros (cs & Ecs); exists cs; auto|].
    assert (Lm : List.length mu = List.length (spec_features (v, t))) by (unfold mu; rewrite map_length; auto).
    assert (Ln : forall k, k < List.length mu -> List.length (nth k mu []) = n). { intros k Hk'. assert (Q : In (nth k mu []) mu) by (apply nth_In; auto). unfold mu in Q at 2. apply in_map_iff in Q. destruct Q as (j & <- & _). rewrite map_length, seq_length. auto. }
    destruct t as [| | |c]; cbn [node_value].
    + rewrite (setting_ok ds "binary" (DName "logit") Nds eq_refl). destruct (names_ok _ _ Hb ltac:(intros y Hy; cbn in Hy |- *; intuition)) as (x0 & Ex & Ix).
      destruct (add_noise_ok _ noise_std (root g v) (nth 0 mu []) (rows n (fun i => sd_noise dr v i 0)) x0 Ex Ix Hn) as (l & El). cbn [bind]. unfold sample_binary. rewrite El. cbn [bind one_col]. eauto.
    + rewrite (setting_ok ds "continuous" (DName "gaussian") Nds eq_refl). destruct (names_ok _ _ Hc ltac:(intros y Hy; cbn in Hy |- *; intuition)) as (x0 & Ex & Ix).
      destruct (add_noise_ok _ noise_std (root g v) (nth 0 mu []) (rows n (fun i => sd_noise dr v i 0)) x0 Ex Ix Hn) as (l & El). cbn [bind]. rewrite El. cbn [bind one_col]. eauto.
    + rewrite (setting_ok ds "count" (DNum (Q2Qc (1 # 20))) Nds eq_refl), Hq. cbn [bind].
      destruct (count_spec q (root g v) (nth 0 mu []) (rows n (sd_root dr v)) (rows n (sd_zero dr v)) (map (sd_poisson dr v) (seq 0 n)) n Q0 Q1) as (l & El & _); auto using rows_len.
      { apply Ln. rewrite Lm. cbn. lia. } { rewrite map_length, seq_length. auto. } { intros i Hi'. rewrite nth_map_seq by auto. apply Up. }
      rewrite El. cbn [bind one_col]. eauto.
    + rewrite (setting_ok ds "categorical" (DName "logit") Nds eq_refl). destruct (names_ok _ _ Hk ltac:(intros y Hy; cbn in Hy |- *; intuition)) as (x0 & Ex & Ix).
      cbn [bind]. unfold sample_categories. destruct (mapM_exists (fun mz => add_noise (setting ds "categorical" (DName "logit")) noise_std (root g v) (fst mz) (snd mz)) (fun _ _ => True) (combine mu (map (fun k => rows n (fun i => sd_noise dr v i k)) (seq 0 c)))) as (ls & Els & _).
      { intros mz _. destruct (add_noise_ok _ noise_std (root g v) (fst mz) (snd mz) x0 Ex Ix Hn) as (l & El). eauto. }
      rewrite Els. cbn [bind]. apply mapM_length in Els. rewrite combine_length, Lm, map_length, seq_length in Els. unfold spec_features in Els. cbn [snd] in Els. rewrite map_length, seq_length in Els. pose proof (proj2 (validated _ _ _ _ V) v c Ht). destruct ls; [cbn in Els; lia|]. eauto.
  - cbn [bind]. eauto.
Qed.

Theorem sem_equations junk df : sem junk = Ok df ->
  Permutation (s_cols df) (flat_map spec_features ts) /\ List.length (s_rows df) = n /\ (forall r, In r (s_rows df) -> List.length r = List.length (s_cols df)) /\
  exists b a, coefficients dr g ts b /\ (forall j f, nth_error (s_cols df) j = Some f -> a f = if intercept then sd_intercept dr j else 0%Qc) /\
    forall v t, In (v, t) ts ->
      let f k := nth k (spec_features (v, t)) v in
      follows n (zero_inflation ds) dr (if has_parents g v then noise_std else 1%Qc) (negb (has_parents g v)) v t
        (fun i k => (a (f k) + Qsum (fun p => cell df i p * b p (f k)) (parent_features g ts v))%Qc) (fun i k => cell df i (f k)).
Proof.
  destruct setup as (m & ix & E & GD). rewrite (sem_unfold m ix) by auto. intros H. destruct (weight_matrix _ _ _ _ _ _) as [w|e] eqn:Ew; cbn [bind] in H; [|discriminate].
  destruct (foldM _ topo _) as [x|e] eqn:F; cbn [bind] in H; [|discriminate]. injection H as <-. set (df := to_frame m n x).
  split; [apply (gd_list ts m ix GD)|]. split; [unfold df, to_frame; cbn; rewrite map_length, seq_length; auto|]. split.
  { intros r Hr. unfold df, to_frame in *. cbn [s_cols s_rows] in *. apply in_map_iff in Hr. destruct Hr as (i & <- & _). rewrite map_length, seq_length. auto. }
  pose proof (fl_nodup ts m ix GD) as NF.
  destruct (run_settled ts m ix GD dr (set_distributions ds) noise_std n (dot_means n w) g (extra_of m)) with (topo := topo) (x := start m junk) (x' := x) as [Sx Sv]; auto using dot_local, extra_big, typed.
  { apply dot_len. } { intros u v. apply typed_pred. } { apply Tp. } { apply Tp. }
  set (fl := feature_list m) in *. exists (fun p q => w (lpos fl p) (lpos fl q)), (fun q => if intercept then sd_intercept dr (lpos fl q) else 0%Qc).
  assert (Lp : forall v t k dflt, In (v, t) ts -> k < List.length (ix v) -> lpos fl (nth k (spec_features (v, t)) dflt) = nth k (ix v) 0). { intros v t k dflt Ht Hk. apply lpos_nth; auto. eapply ix_nth; eauto. }
  (* the weights *)
  assert (Hw : exists w0, foldM (edge_block dr (setting ds "weight" (DName "uniform")) m) (edges_weight g) (fun _ _ => 0%Qc) = Ok w0 /\ (forall p q, p < n_features m -> w p q = w0 p q) /\ (intercept = true -> forall q, w (n_features m) q = sd_intercept dr q)).
  { unfold weight_matrix in Ew. destruct (foldM _ _ _) as [w0|e]; cbn [bind] in Ew; [|discriminate]. exists w0. split; auto. destruct intercept.
    - destruct (weight_name _); [|discriminate]. injection Ew as <-. rewrite (gd_sum ts m ix GD). split; [intros p q Hp; destruct (Nat.eqb_spec p (n_features m)); [lia|auto]|]. intros _ q. rewrite Nat.eqb_refl. auto.
    - injection Ew as <-. split; auto. discriminate. }
  destruct Hw as (w0 & Ew0 & Hw & Hwi). split; [|split].
  - intros u v a0 tu tv He Hu Hv. cbv zeta. assert (Tes : forall u v wt, In (u, v, wt) (edges_weight g) -> (exists tu, In (u, tu) ts) /\ (exists tv, In (v, tv) ts)).
    { intros u' v' wt Q. unfold edges_weight in Q. apply in_map_iff in Q. destruct Q as ([[u1 v1] a1] & Q & Q2). cbn [fst snd] in Q. injection Q as -> -> <-. assert (Huv : In (u', v') (edges g)) by (unfold edges; apply in_map_iff; exists (u', v', a1); auto). destruct (edges_nodes g u' v' W Huv). split; apply typed; auto. }
    assert (Nes : NoDup (map fst (edges_weight g))). { unfold edges_weight. rewrite map_map. cbn [fst]. apply (edges_NoDup g W). }
    destruct (fold_blocks ts m ix GD dr _ (edges_weight g) Nes Tes _ _ Ew0) as [_ B]. destruct (B u v (weight_of a0)) as (vals & Bk & Bv). { unfold edges_weight. apply in_map_iff. exists (u, v, a0). auto. }
    rewrite <- !(ix_length ts m ix GD) by auto.
    assert (Ec : forall i j, i < List.length (ix u) -> j < List.length (ix v) -> w (lpos fl (nth i (spec_features (u, tu)) u)) (lpos fl (nth j (spec_features (v, tv)) v)) = vals i j).
    { intros i j Hi Hj. rewrite !Lp by auto. rewrite Hw by (apply (ix_lt ts m ix GD u tu _ Hu); apply nth_In; auto). apply Bv; auto. }
    unfold block_ok in Bk. destruct (weight_of a0) as [q| | |]; auto.
    + destruct Bk as [B1 B2]. split; [intros L1 L2; rewrite Ec by lia; auto|]. intros L i j Hi Hj. rewrite Ec by auto. auto.
    + intros i j Hi Hj. rewrite Ec by auto. auto.
  - intros j f Hf. unfold df, to_frame in Hf. cbn [s_cols] in Hf. rewrite (lpos_nth fl f j NF Hf). auto.
  - intros v t Ht. cbv zeta. destruct (Sv v t Ht) as (mu & cs & M & Nv & Lc & Xv). unfold dot_means in M.
    assert (Lm : List.length mu = List.length (ix v)) by (injection M as <-; rewrite map_length; auto). pose proof (ix_length ts m ix GD v t Ht) as Li.
    assert (Emu : forall i k, i < n -> k < List.length (ix v) -> nth i (nth k mu []) 0%Qc = Qsum (fun p => x i p * w p (nth k (ix v) 0%nat))%Qc (pcols ix g (extra_of m) v)).
    { intros i k Hi Hk. assert (Emu : mu = map (fun j => map (fun i => Qsum (fun p => x i p * w p j)%Qc (pcols ix g (extra_of m) v)) (seq 0 n)) (ix v)) by congruence. rewrite Emu. rewrite (nth_indep _ [] (map (fun i => Qsum (fun p => x i p * w p 0%nat)%Qc (pcols ix g (extra_of m) v)) (seq 0 n))) by (rewrite map_length; auto).
      rewrite (map_nth (fun j => map (fun i => Qsum (fun p => x i p * w p j)%Qc (pcols ix g (extra_of m) v)) (seq 0 n))). exact (nth_map_seq (fun i => Qsum (fun p => x i p * w p (nth k (ix v) 0%nat))%Qc (pcols ix g (extra_of m) v)) n i 0%Qc Hi). }
    assert (Ln : forall k, k < List.length mu -> List.length (nth k mu []) = n). { intros k Hk. assert (Q : In (nth k mu []) mu) by (apply nth_In; auto). assert (Emu' : mu = map (fun j => map (fun i => Qsum (fun p => x i p * w p j)%Qc (pcols ix g (extra_of m) v)) (seq 0 n)) (ix v)) by congruence. rewrite Emu' in Q at 2. apply in_map_iff in Q. destruct Q as (j & <- & _). rewrite map_length, seq_length. auto. }
    (* cells *)
    assert (Ecell : forall u tu i k dflt, In (u, tu) ts -> i < n -> k < List.length (ix u) -> cell df i (nth k (spec_features (u, tu)) dflt) = x i (nth k (ix u) 0)). { intros u tu i k dflt Hu Hi Hk. apply cell_frame; auto. eapply ix_nth; eauto. }
    assert (Elat : forall i k, i < n -> k < List.length (ix v) -> (nth i (nth k mu []) 0 = (if intercept then sd_intercept dr (lpos fl (nth k (spec_features (v, t)) v)) else 0) + Qsum (fun p => cell df i p * w (lpos fl p) (lpos fl (nth k (spec_features (v, t)) v))) (parent_features g ts v))%Qc).
    { intros i k Hi Hk. rewrite Emu by auto. rewrite Lp by auto. unfold pcols. rewrite Qsum_app, Qcplus_comm. f_equal.
      - unfold extra_of in *. unfold start in Sx. destruct intercept; [|reflexivity]. unfold Qsum. cbn [fold_right map]. rewrite <- (Sx i (n_features m)) by (auto; left; auto). rewrite Nat.eqb_refl, Hwi by auto. ring.
      - rewrite (Qsum_perm _ _ _ (preds_perm g ts ix v W (gd_nodup ts m ix GD) typed_pred)). unfold parent_features. rewrite !Qsum_flat_map. apply Qsum_ext. intros [u tu] Hu. apply filter_In in Hu. destruct Hu as [Hu _]. cbn [fst].
        assert (Eix : ix u = map (lpos fl) (spec_features (u, tu))). { apply nth_ext with 0 (lpos fl u); [rewrite map_length; eapply ix_length; eauto|]. intros k' Hk'. rewrite (map_nth (lpos fl)). symmetry. auto. }
        rewrite Eix, Qsum_map. apply Qsum_ext. intros p Hp. apply (In_nth _ _ u) in Hp. destruct Hp as (k' & Hk' & <-). rewrite <- (ix_length ts m ix GD u tu Hu) in Hk'. rewrite (Ecell u tu) by auto. rewrite Lp by auto. auto. }
    rewrite has_parents_root, negb_involutive.
    assert (Pct : dist_of (set_distributions ds) "count" = Ok (DNum (zero_inflation ds)) \/ t <> TCount).
    { destruct t; try (right; discriminate). left. cbn [node_value] in Nv. unfold zero_inflation. rewrite (setting_ok ds "count" (DNum (Q2Qc (1 # 20))) Nds eq_refl) in *. destruct (setting ds "count" _); auto. cbn in Nv. discriminate. }
    pose proof (node_follows dr (set_distributions ds) noise_std n g v (Up v) t mu cs (zero_inflation ds) Pct Nv ltac:(lia) Ln) as FL.
    replace (if negb (root g v) then noise_std else 1%Qc) with (if root g v then 1%Qc else noise_std) by (destruct (root g v); auto).
    assert (Evl : forall i k, i < n -> k < List.length (ix v) -> nth i (nth k cs []) 0%Qc = cell df i (nth k (spec_features (v, t)) v)). { intros i k Hi Hk. rewrite (Ecell v t) by auto. symmetry. auto. }
    destruct t as [| | |c]; cbn [follows] in *; (assert (L0 : 0 < List.length (ix v)) by (rewrite Li; try (cbn; lia); unfold spec_features; cbn [snd]; rewrite map_length, seq_length; apply (proj2 (validated _ _ _ _ V) v c Ht))).
    + destruct FL as (th & T & FL). exists th. split.
      * erewrite map_ext_in; [exact T|]. intros i Hi. apply in_seq in Hi. cbv beta. rewrite Elat by (auto; lia). auto.
      * intros i Hi. specialize (FL i Hi). rewrite Elat in FL by auto. rewrite Evl in FL by auto. exact FL.
    + intros i Hi. specialize (FL i Hi). rewrite Elat in FL by auto. rewrite Evl in FL by auto. exact FL.
    + intros i Hi. specialize (FL i Hi). rewrite Elat in FL by auto. rewrite Evl in FL by auto. exact FL.
    + assert (Lc' : List.length (ix v) = c) by (rewrite Li; unfold spec_features; cbn [snd]; rewrite map_length, seq_length; auto).
      intros i Hi. destruct (FL i Hi) as (k & Hk & F1 & F2 & F3). exists k. split; auto. split; [|split].
      * intros k' Hk'. specialize (F1 k' Hk'). rewrite !Elat in F1 by lia. exact F1.
      * intros k' Hk'. specialize (F2 k' Hk'). rewrite !Elat in F2 by lia. exact F2.
      * intros k' Hk'. specialize (F3 k' Hk'). rewrite Evl in F3 by lia. exact F3.
Qed.
End Main.
