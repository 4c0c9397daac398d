(** * SemThms: what sem_generator and nonlinear_sem_generator return. *)
From Coq Require Import List Bool Arith ZArith Lia String QArith Qcanon Permutation Reals Lra.
From Verif Require Import Base Names Digraph NetModel SmModel SmProofs QcX NotearsModel TorchModel DiscModel MapperModel MapperProofs MapperThms AcycLink OrdProofs PoisModel PoisProofs GenModel SemModel SemProofs.
Import ListNotations.
Local Open Scope string_scope.
Local Open Scope list_scope.
Local Open Scope nat_scope.

(** ** The mapper of a well typed schema *)
Lemma NoDup_flat_map_inj {A B} (f : A -> list B) l a b x : NoDup (flat_map f l) -> In a l -> In b l -> In x (f a) -> In x (f b) -> a = b.
Proof.
  induction l as [|c l IH]; cbn [flat_map]; [intros _ []|]. intros N Ha Hb Xa Xb.
  assert (Nt : NoDup (flat_map f l)) by (eapply NoDup_tail; eauto).
  assert (D : forall y, In y l -> In x (f c) -> In x (f y) -> False).
  { intros y Hy X1 X2. clear - N Hy X1 X2. assert (X3 : In x (flat_map f l)) by (apply in_flat_map; eauto). apply in_split in X1. destruct X1 as (p & q & E). rewrite E, <- app_assoc in N. cbn [app] in N. apply NoDup_remove_2 in N. apply N. rewrite !in_app_iff. auto. }
  destruct Ha as [<-|Ha], Hb as [<-|Hb]; auto; exfalso; eauto.
Qed.

Record good (ts : list (label * vtype)) (m : mapper) (ix : label -> list nat) : Prop := mkGood {
  gd_nodup : NoDup (map fst ts);
  gd_features : NoDup (flat_map spec_features ts);
  gd_list : Permutation (feature_list m) (flat_map spec_features ts);
  gd_ix : forall v t, In (v, t) ts -> get_indices m v = Ok (ix v) /\ lget (var_indices_dict m) v = Ok (ix v) /\ ix v <> [] /\
    map (nth_error (feature_list m)) (ix v) = map Some (spec_features (v, t));
  gd_type : forall v t, In (v, t) ts -> is_var_of_type m v "continuous" = Ok (is_cont t) /\ is_var_of_type m v "binary" = Ok (is_bin t) /\
    is_var_of_type m v "count" = Ok (is_count t) /\ is_var_of_type m v "categorical" = Ok (is_cat t);
  gd_sum : list_sum (map (fun kv => List.length (snd kv)) (var_indices_dict m)) = n_features m }.

Lemma type_test order ts m : Permutation order PERMISSIBLE_TYPES -> NoDup (map fst ts) -> variable_type_dict m = map (fun x => (x, vars_of (texts ts) x)) order ->
  forall x p v t, In x PERMISSIBLE_TYPES -> (forall t, contains x (type_text t) = p t) -> In (v, t) ts -> is_var_of_type m v x = Ok (p t).
Proof.
  intros Po ND Et x p v t Hx Hp H. unfold is_var_of_type, get_var_of_type. replace (smem x PERMISSIBLE_TYPES) with true.
  2:{ destruct Hx as [<-|[<-|[<-|[<-|[]]]]]; reflexivity. }
  rewrite Et, dget_types by auto. cbn [bind]. rewrite (vars_of_sel x p ts Hp). f_equal. destruct (p t) eqn:E.
  - apply (memb_In _ label_eqb_spec). apply in_sel. eauto.
  - apply (memb_false _ label_eqb_spec). intros Q. apply in_sel in Q. destruct Q as (t' & Q & Et'). pose proof (In_dget _ label_eqb_spec _ _ _ ND H) as G1. pose proof (In_dget _ label_eqb_spec _ _ _ ND Q) as G2. congruence.
Qed.

Lemma list_sum_perm l l' : Permutation l l' -> list_sum l = list_sum l'.
Proof. intros P. induction P; unfold list_sum in *; cbn [fold_right] in *; lia. Qed.

Lemma flat_map_length {A B} (f : A -> list B) l : List.length (flat_map f l) = list_sum (map (fun a => List.length (f a)) l).
Proof. induction l; cbn; auto. rewrite app_length, IHl. auto. Qed.

Lemma mapper_facts order ts : Permutation order PERMISSIBLE_TYPES -> no_clash ts -> positive_cards ts ->
  exists m ix, mapper_init order (texts ts) = Ok m /\ good ts m ix.
Proof.
  intros Po NC Pos. pose proof (no_clash_features ts NC) as NDf. pose proof (NoDup_str_fst ts (proj1 NC)) as NDv.
  destruct (mapper_good order ts Po NDv NDf) as (m & E & Ef & Ei & Ec & Et & Hi & Pk).
  exists m, (fun v => match get_indices m v with Ok l => l | Err _ => [] end). split; auto.
  assert (Pv : Permutation (variable_list m) (map fst ts)) by (unfold variable_list; rewrite Et; apply dict_order_perm; auto).
  assert (Mv : forall v t, In (v, t) ts -> memb label_eqb v (variable_list m) = true).
  { intros v t H. apply (memb_In _ label_eqb_spec). rewrite Pv. apply in_map_iff. exists (v, t). auto. }
  assert (G : forall v t, In (v, t) ts -> exists l, get_indices m v = Ok l /\ lget (var_indices_dict m) v = Ok l /\ map (nth_error (feature_list m)) l = map Some (spec_features (v, t))).
  { intros v t H. unfold get_indices. rewrite (Mv v t H), Ef. destruct (Hi v t H) as (l & El & Hl). exists l. auto. }
  constructor; auto.
  - rewrite Ef. apply all_features_perm.
  - intros v t H. destruct (G v t H) as (l & E1 & E2 & E3). rewrite E1. split; auto. split; auto. split; auto. intros ->. cbn in E3. destruct t as [| | |n]; try discriminate. pose proof (Pos v n H). destruct n; [lia|discriminate].
  - intros v t H. split; [|split; [|split]]; refine (type_test order ts m Po NDv Et _ _ v t _ _ H); cbn; auto using text_bin, text_cat, text_cont, text_count.
  - unfold n_features. rewrite Ef, (Permutation_length (all_features_perm ts)), flat_map_length.
    transitivity (list_sum (map (fun v => List.length (match lget (var_indices_dict m) v with Ok l => l | Err _ => [] end)) (map fst (var_indices_dict m)))).
    + rewrite map_map. f_equal. apply map_ext_in. intros [k l] Hk. cbn [fst snd].
      rewrite (lget_In _ k l); auto. eapply Permutation_NoDup; [symmetry; exact Pk|exact NDv].
    + rewrite (list_sum_perm _ _ (Permutation_map _ Pk)), map_map. f_equal. apply map_ext_in. intros [v t] H. cbn [fst]. destruct (G v t H) as (l & _ & E2 & E3). rewrite E2. apply (f_equal (@List.length _)) in E3. rewrite !map_length in E3. auto.
Qed.

Section Good.
Context (ts : list (label * vtype)) (m : mapper) (ix : label -> list nat) (GD : good ts m ix).
Local Notation fl := (feature_list m).
Local Notation nf := (n_features m).

Lemma fl_nodup : NoDup fl.
Proof. eapply Permutation_NoDup; [symmetry; apply (gd_list ts m ix GD)|apply (gd_features ts m ix GD)]. Qed.

Lemma ix_length v t : In (v, t) ts -> List.length (ix v) = List.length (spec_features (v, t)).
Proof. intros H. destruct (gd_ix ts m ix GD v t H) as (_ & _ & _ & E). apply (f_equal (@List.length _)) in E. rewrite !map_length in E. auto. Qed.

Lemma ix_nth v t k d : In (v, t) ts -> k < List.length (ix v) -> nth_error fl (nth k (ix v) 0) = Some (nth k (spec_features (v, t)) d).
Proof.
  intros H Hk. pose proof (ix_length v t H) as L. destruct (gd_ix ts m ix GD v t H) as (_ & _ & _ & E).
  assert (Q : nth k (map (nth_error fl) (ix v)) None = nth k (map Some (spec_features (v, t))) None) by (rewrite E; auto).
  rewrite (nth_indep _ None (nth_error fl 0)), (map_nth (nth_error fl)) in Q by (rewrite map_length; auto).
  rewrite (nth_indep (map Some _) None (Some d)), (map_nth Some) in Q by (rewrite map_length; lia). auto.
Qed.

Lemma ix_in v t j : In (v, t) ts -> In j (ix v) -> exists f, nth_error fl j = Some f /\ In f (spec_features (v, t)).
Proof. intros H Hj. destruct (gd_ix ts m ix GD v t H) as (_ & _ & _ & E). assert (Q : In (nth_error fl j) (map (nth_error fl) (ix v))) by (apply in_map; auto). rewrite E in Q. apply in_map_iff in Q. destruct Q as (f & Q & Hf). eauto. Qed.

Lemma ix_lt v t j : In (v, t) ts -> In j (ix v) -> j < nf.
Proof. intros H Hj. destruct (ix_in v t j H Hj) as (f & E & _). apply nth_error_Some. congruence. Qed.

Lemma ix_nodup v t : In (v, t) ts -> NoDup (ix v).
Proof.
  intros H. destruct (gd_ix ts m ix GD v t H) as (_ & _ & _ & E). apply (NoDup_map_inv (nth_error fl)). rewrite E. apply FinFun.Injective_map_NoDup; [intros a b [= ->]; auto|].
  pose proof (gd_features ts m ix GD) as N. apply in_split in H. destruct H as (a & b & ->). rewrite flat_map_app in N. cbn [flat_map] in N. apply NoDup_tail in N. clear - N. revert N. generalize (spec_features (v, t)), (flat_map spec_features b). intros l l'. induction l as [|x l IH]; cbn; [constructor|]. intros N. inversion N as [|? ? H1 H2]; subst. constructor; auto. intros Q. apply H1. apply in_or_app. auto.
Qed.

Lemma ix_disjoint u tu v tv j : In (u, tu) ts -> In (v, tv) ts -> In j (ix u) -> In j (ix v) -> u = v.
Proof.
  intros Hu Hv Ju Jv. destruct (ix_in u tu j Hu Ju) as (f & E & Fu). destruct (ix_in v tv j Hv Jv) as (f' & E' & Fv). rewrite E in E'. injection E' as <-.
  pose proof (NoDup_flat_map_inj spec_features ts _ _ f (gd_features ts m ix GD) Hu Hv Fu Fv) as Q. injection Q as -> _. auto.
Qed.

Lemma ix_cover j : j < nf -> exists v t, In (v, t) ts /\ In j (ix v).
Proof.
  intros Hj. unfold n_features in Hj. destruct (nth_error fl j) as [f|] eqn:E; [|apply nth_error_None in E; lia].
  assert (Hf : In f (flat_map spec_features ts)) by (rewrite <- (gd_list ts m ix GD); eapply nth_error_In; eauto). apply in_flat_map in Hf. destruct Hf as ([v t] & H & Hf). exists v, t. split; auto.
  destruct (gd_ix ts m ix GD v t H) as (_ & _ & _ & Ei). assert (Q : In (Some f) (map (nth_error fl) (ix v))) by (rewrite Ei; apply in_map; auto). apply in_map_iff in Q. destruct Q as (j' & E' & Hj'). assert (j' = j). { apply (proj1 (NoDup_nth_error fl) fl_nodup); [apply nth_error_Some; congruence|congruence]. } subst. auto.
Qed.

(** ** One node *)
Context (dr : sdraws) (d : list (string * dist)) (noise_std : Qc) (n : nat) (means : qmat -> label -> list nat -> list nat -> res (list (list Qc))) (g : graph) (extra : list nat).
Hypothesis Hmeans : forall x y v ps js, same_on n ps x y -> means x v ps js = means y v ps js.
Hypothesis Hlen : forall x v ps js mu, means x v ps js = Ok mu -> List.length mu = List.length js.
Hypothesis Hpreds : forall u v, In (u, v) (edges g) -> exists tu, In (u, tu) ts.

Definition rows (f : nat -> Qc) : list Qc := map f (seq 0 n).
Definition pcols (v : label) : list nat := flat_map ix (preds g v) ++ extra.
Definition root (v : label) : bool := match preds g v with [] => true | _ => false end.

Lemma preds_in v u : In u (preds g v) <-> In (u, v) (edges g).
Proof.
  unfold preds. rewrite in_map_iff. split.
  - intros ([a b] & <- & H). apply filter_In in H. destruct H as [H E]. cbn [snd] in E. destruct (label_eqb_spec b v); [subst|discriminate]. auto.
  - intros H. exists (u, v). split; auto. apply filter_In. split; auto. cbn [snd]. destruct (label_eqb_spec v v); auto.
Qed.

Lemma indices_list l : (forall u, In u l -> exists t, In (u, t) ts) -> get_indices_list m l = Ok (flat_map ix l).
Proof.
  intros H. unfold get_indices_list. rewrite (mapM_ok_intro _ _ ix). { cbn [bind]. f_equal. symmetry. apply flat_map_concat_map. }
  intros u Hu. destruct (H u Hu) as (t & Ht). apply (gd_ix ts m ix GD u t Ht).
Qed.

Lemma root_flag v : (List.length (pcols v) <=? List.length extra) = root v.
Proof.
  unfold pcols, root. rewrite app_length. destruct (preds g v) as [|u l] eqn:E; [apply Nat.leb_le; cbn; lia|]. apply Nat.leb_gt.
  assert (Hu : In u (preds g v)) by (rewrite E; left; auto). apply preds_in in Hu. destruct (Hpreds u v Hu) as (t & Ht). destruct (gd_ix ts m ix GD u t Ht) as (_ & _ & N & _). cbn [flat_map]. rewrite app_length. destruct (ix u); [congruence|cbn; lia].
Qed.

(** What a node of each type gets, from the latent means [mu]. *)
Definition node_value (v : label) (t : vtype) (mu : list (list Qc)) : res (list (list Qc)) :=
  match t with
  | TContinuous => do di <- dist_of d "continuous"; one_col (add_noise di noise_std (root v) (nth 0 mu []) (rows (fun i => sd_noise dr v i 0)))
  | TBinary => do di <- dist_of d "binary"; one_col (sample_binary di noise_std (root v) (nth 0 mu []) (rows (fun i => sd_noise dr v i 0)))
  | TCount => do di <- dist_of d "count"; one_col (sample_count di (root v) (nth 0 mu []) (rows (sd_root dr v)) (rows (sd_zero dr v)) (map (sd_poisson dr v) (seq 0 n)))
  | TCategorical k => do di <- dist_of d "categorical"; sample_categories di noise_std (root v) n mu (map (fun k => rows (fun i => sd_noise dr v i k)) (seq 0 k))
  end.

Lemma node_columns_eq x v t : In (v, t) ts ->
  node_columns dr d noise_std n means g m extra x v = (do mu <- means x v (pcols v) (ix v); do c <- node_value v t mu; Ok (ix v, c)).
Proof.
  intros H. unfold node_columns. destruct (gd_ix ts m ix GD v t H) as (E1 & _ & N & E). rewrite E1. cbn [bind].
  rewrite indices_list by (intros u Hu; apply preds_in in Hu; eauto). cbn [bind]. fold (pcols v). rewrite root_flag.
  destruct (gd_type ts m ix GD v t H) as (T1 & T2 & T3 & T4). rewrite T1, T2, T3, T4. cbn [bind].
  pose proof (ix_length v t H) as L. 
  assert (Single : is_cat t = false -> exists j, ix v = [j]).
  { intros Hc. assert (L1 : List.length (ix v) = 1) by (rewrite L; destruct t; try discriminate; reflexivity). destruct (ix v) as [|j [|? ?]]; try discriminate. eauto. }
  destruct t as [| | |k]; cbn [is_cont is_bin is_count is_cat node_value].
  1-3: destruct (Single eq_refl) as (j & ->); cbn [first_index bind]; destruct (means x v (pcols v) [j]) as [mu|e]; cbn [bind]; auto; destruct (dist_of d _); cbn [bind]; auto.
  rewrite L. unfold spec_features. cbn [snd fst]. rewrite map_length, seq_length. destruct (means x v (pcols v) (ix v)); cbn [bind]; auto. destruct (dist_of d _); reflexivity.
Qed.

Lemma one_col_length r c : one_col r = Ok c -> List.length c = 1.
Proof. unfold one_col. destruct r; cbn [bind]; [|discriminate]. intros [= <-]. auto. Qed.

Lemma mapM_length {A B} (f : A -> res B) l r : mapM f l = Ok r -> List.length r = List.length l.
Proof. intros H. apply mapM_ok in H. induction H; cbn; auto. Qed.

Lemma node_value_length v t mu c : List.length mu = List.length (spec_features (v, t)) -> node_value v t mu = Ok c -> List.length c = List.length (spec_features (v, t)).
Proof.
  intros L. unfold node_value. destruct t as [| | |k]; destruct (dist_of d _); cbn [bind]; try discriminate; try (intros H; apply one_col_length in H; exact H).
  unfold sample_categories. destruct (mapM _ _) as [ls|e] eqn:E; cbn [bind]; [|discriminate]. apply mapM_length in E. rewrite combine_length, L, map_length, seq_length in E. assert (Lf : List.length (spec_features (v, TCategorical k)) = k) by (unfold spec_features; cbn [snd]; rewrite map_length, seq_length; auto). rewrite Lf in *. destruct ls as [|l ls]; [discriminate|]. intros Hc. apply (f_equal (fun r => match r with Ok x => List.length x | Err _ => 0 end)) in Hc. cbv beta iota in Hc. rewrite <- Hc, map_length, seq_length. lia.
Qed.

Context (topo : list label).
Hypothesis Gwf : wf g.
Hypothesis Hnodes : forall v, In v (nodes g) <-> exists t, In (v, t) ts.
Hypothesis Ptopo : Permutation topo (nodes g).
Hypothesis Htopo : forall l1 v l2, topo = l1 ++ v :: l2 -> forall u, In (u, v) (edges g) -> In u l1.
Hypothesis Hextra : forall j, In j extra -> nf <= j.

Local Notation cols := (node_columns dr d noise_std n means g m extra).

Lemma topo_typed v : In v topo -> exists t, In (v, t) ts.
Proof. intros H. apply Hnodes. rewrite <- Ptopo. auto. Qed.

Lemma g_cols v x js cs : In v topo -> cols x v = Ok (js, cs) -> js = ix v /\ List.length cs = List.length (ix v).
Proof.
  intros H C. destruct (topo_typed v H) as (t & Ht). rewrite (node_columns_eq x v t Ht) in C. destruct (means x v _ _) as [mu|] eqn:M; cbn [bind] in C; [|discriminate]. destruct (node_value v t mu) as [c|] eqn:V; cbn [bind] in C; [|discriminate]. injection C as <- <-. split; auto.
  apply Hlen in M. rewrite (ix_length v t Ht) in *. eapply node_value_length; eauto.
Qed.
Lemma g_local v x y : In v topo -> same_on n (flat_map ix (preds g v) ++ extra) x y -> cols x v = cols y v.
Proof. intros H S. destruct (topo_typed v H) as (t & Ht). rewrite !(node_columns_eq _ v t Ht). rewrite (Hmeans x y); auto. Qed.
Lemma g_disj u v j : In u topo -> In v topo -> In j (ix u) -> In j (ix v) -> u = v.
Proof. intros Hu Hv. destruct (topo_typed u Hu) as (tu & Tu). destruct (topo_typed v Hv) as (tv & Tv). eapply ix_disjoint; eauto. Qed.
Lemma g_nd v : In v topo -> NoDup (ix v).
Proof. intros Hv. destruct (topo_typed v Hv) as (tv & Tv). eapply ix_nodup; eauto. Qed.
Lemma g_extra v j : In v topo -> In j (ix v) -> ~ In j extra.
Proof. intros Hv Hj Q. destruct (topo_typed v Hv) as (tv & Tv). apply Hextra in Q. pose proof (ix_lt v tv j Tv Hj). lia. Qed.
Lemma g_nodup : NoDup topo.
Proof. eapply Permutation_NoDup; [symmetry; exact Ptopo|apply Gwf]. Qed.
Lemma g_topo l1 v l2 : topo = l1 ++ v :: l2 -> incl (preds g v) l1.
Proof. intros E u Hu. apply preds_in in Hu. eapply Htopo; eauto. Qed.

Local Notation step := (node_step dr d noise_std n means g m extra).

Lemma frame_same x y : same_on n (flat_map ix topo ++ extra) x y -> to_frame m n x = to_frame m n y.
Proof.
  intros S. unfold to_frame. f_equal. apply map_ext_in. intros i Hi. apply in_seq in Hi. apply map_ext_in. intros j Hj. apply in_seq in Hj. apply S; [lia|]. apply in_or_app. left.
  destruct (ix_cover j) as (v & t & Hv & Hj'); [lia|]. apply in_flat_map. exists v. split; auto. rewrite Ptopo. apply Hnodes. eauto.
Qed.

(** The uninitialised array has no influence. *)
Lemma run_same x y : same_on n extra x y -> (do r <- foldM step topo x; Ok (to_frame m n r)) = (do r <- foldM step topo y; Ok (to_frame m n r)).
Proof.
  intros S. pose proof (loop_same n ix extra (preds g) cols topo g_cols g_local g_nd g_nodup g_topo topo [] x y eq_refl S) as Q. cbv zeta in Q. unfold node_step.
  destruct (foldM _ topo x) as [x'|e], (foldM _ topo y) as [y'|e']; cbn [bind]; try contradiction; [|congruence]. f_equal. apply frame_same. auto.
Qed.

Lemma run_settled x x' : foldM step topo x = Ok x' -> same_on n extra x x' /\ forall v t, In (v, t) ts -> exists mu cs, means x' v (pcols v) (ix v) = Ok mu /\ node_value v t mu = Ok cs /\ List.length cs = List.length (ix v) /\
  forall i k, i < n -> k < List.length (ix v) -> x' i (nth k (ix v) 0) = nth i (nth k cs []) 0%Qc.
Proof.
  intros F. destruct (loop_settled n ix extra (preds g) cols topo g_cols g_local g_nd g_disj g_extra g_nodup g_topo topo [] x x' eq_refl) as [S1 S2]; auto. { intros v []. }
  split; auto. intros v t Ht. destruct (S1 v) as (cs & C & L & E). { rewrite Ptopo. apply Hnodes. eauto. }
  rewrite (node_columns_eq x' v t Ht) in C. destruct (means x' v _ _) as [mu|] eqn:M; cbn [bind] in C; [|discriminate]. destruct (node_value v t mu) as [c|] eqn:V; cbn [bind] in C; [|discriminate]. injection C as ->. eauto 6.
Qed.

Lemma run_ok x : (forall x v t, In (v, t) ts -> exists mu cs, means x v (pcols v) (ix v) = Ok mu /\ node_value v t mu = Ok cs) -> exists x', foldM step topo x = Ok x'.
Proof.
  intros H. apply (loop_ok n cols topo); [|intros v; auto]. intros x0 v Hv. destruct (topo_typed v Hv) as (t & Ht). rewrite (node_columns_eq x0 v t Ht). destruct (H x0 v t Ht) as (mu & cs & -> & E). cbn [bind]. rewrite E. cbn [bind]. eauto.
Qed.
End Good.
