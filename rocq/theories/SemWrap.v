(** * SemWrap: the wrappers for one variable type, and the validation of distribution names. *)
From Coq Require Import List Bool Arith ZArith Lia String QArith Qcanon Permutation Reals Lra.
From Verif Require Import Base Names Digraph NetModel SmModel SmProofs QcX NotearsModel NotearsProofs TorchModel DiscModel MapperModel MapperProofs MapperThms AcycLink OrdProofs PoisModel PoisProofs GenModel SemModel SemProofs SemThms SemEq SemMain SemGp SemBin.
Import ListNotations.
Local Open Scope string_scope.
Local Open Scope list_scope.
Local Open Scope nat_scope.

(** ** Names of distributions *)
Definition sampled_name (d : dist) : Prop := exists s, d = DName s /\ In s ["gaussian"; "normal"; "student-t"; "exponential"; "gumbel"; "probit"; "logit"].

Lemma noise_name d ns r mean z l : add_noise d ns r mean z = Ok l -> sampled_name d.
Proof.
  unfold add_noise, noise_scale. destruct d as [s|q]; [|discriminate]. destruct (smem s known_distributions) eqn:E; [|discriminate]. intros _. exists s. split; auto. apply smem_In in E. unfold known_distributions in E. cbn in *. intuition.
Qed.

Section Names.
Context (order : list string) (topo : list label) (dr : sdraws) (g : graph) (s : schema) (default : string) (noise_std : Qc) (n : nat) (ds : option (list (string * dist))) (intercept : bool) (ts : list (label * vtype)).
Hypothesis Po : Permutation order PERMISSIBLE_TYPES.
Hypothesis W : wf g.
Hypothesis Ac : acyclic (edges g).
Hypothesis V : validate_schema (nodes g) default s = Ok (texts ts).
Hypothesis NC : no_clash ts.
Hypothesis Nds : match ds with Some l => NoDup (map fst l) | None => True end.
Hypothesis Tp : topological g topo.

Theorem names_checked junk df : sem_generator order topo junk dr g s default noise_std n ds intercept = Ok df ->
  (forall v, In (v, TContinuous) ts -> sampled_name (setting ds "continuous" (DName "gaussian"))) /\
  (forall v, In (v, TBinary) ts -> sampled_name (setting ds "binary" (DName "logit"))) /\
  (forall v c, In (v, TCategorical c) ts -> sampled_name (setting ds "categorical" (DName "logit"))) /\
  (forall v, In (v, TCount) ts -> exists q, setting ds "count" (DNum (Q2Qc (1 # 20))) = DNum q /\ (0 <= q)%Qc /\ (q <= 1)%Qc) /\
  (forall u v a, In (u, v, a) (edges_data g) -> weight_of a = ANone -> exists x, setting ds "weight" (DName "uniform") = DName x /\ In x ["uniform"; "gaussian"; "normal"]) /\
  (intercept = true -> exists x, setting ds "intercept" (DName "uniform") = DName x /\ In x ["uniform"; "gaussian"; "normal"]).
Proof.
  destruct (setup order g s default ts Po Ac V NC) as (m & ix & E & GD). rewrite (sem_unfold order topo dr g s default noise_std n ds intercept ts Nds m ix) by auto. intros H.
  destruct (weight_matrix _ _ _ _ _ _) as [w|e] eqn:Ew; cbn [bind] in H; [|discriminate].
  destruct (foldM _ topo _) as [x|e] eqn:F; cbn [bind] in H; [|discriminate].
  destruct (run_settled ts m ix GD dr (set_distributions ds) noise_std n (dot_means n w) g (extra_of intercept m)) with (topo := topo) (x := start intercept m junk) (x' := x) as [_ Sv]; auto.
  { apply dot_local. } { apply dot_len. } { intros u v. exact (typed_pred g s default ts W V u v). } { exact (typed g s default ts V). } { apply Tp. } { apply Tp. } { apply extra_big. }
  assert (WN : forall d, weight_name d = true -> exists x, d = DName x /\ In x ["uniform"; "gaussian"; "normal"]). { intros [y|q] Q; [|discriminate]. exists y. split; auto. apply smem_In. auto. }
  split; [|split; [|split; [|split; [|split]]]].
  - intros v Hv. destruct (Sv _ _ Hv) as (mu & cs & _ & Nv & _). cbn [node_value] in Nv. rewrite (setting_ok ds "continuous" (DName "gaussian") Nds eq_refl) in Nv. cbn [bind] in Nv. unfold one_col in Nv. destruct (add_noise _ _ _ _ _) eqn:A; [|discriminate]. eapply noise_name; eauto.
  - intros v Hv. destruct (Sv _ _ Hv) as (mu & cs & _ & Nv & _). cbn [node_value] in Nv. rewrite (setting_ok ds "binary" (DName "logit") Nds eq_refl) in Nv. cbn [bind] in Nv. unfold one_col, sample_binary in Nv. destruct (add_noise _ _ _ _ _) eqn:A; [|discriminate]. eapply noise_name; eauto.
  - intros v c Hv. destruct (Sv _ _ Hv) as (mu & cs & M & Nv & _). cbn [node_value] in Nv. rewrite (setting_ok ds "categorical" (DName "logit") Nds eq_refl) in Nv. cbn [bind] in Nv. unfold sample_categories in Nv.
    assert (Lm : List.length mu = c). { apply dot_len in M. rewrite M, (ix_length ts m ix GD v _ Hv). unfold spec_features. cbn [snd]. rewrite map_length, seq_length. auto. }
    pose proof (proj2 (validated _ _ _ _ V) v c Hv) as Pc. destruct c; [lia|]. destruct mu as [|m0 mu]; [discriminate|]. cbn [seq map combine mapM fst snd] in Nv. destruct (add_noise _ _ _ _ _) eqn:A; [|discriminate]. eapply noise_name; eauto.
  - intros v Hv. destruct (Sv _ _ Hv) as (mu & cs & _ & Nv & _). cbn [node_value] in Nv. rewrite (setting_ok ds "count" (DNum (Q2Qc (1 # 20))) Nds eq_refl) in Nv. cbn [bind] in Nv. unfold one_col, sample_count in Nv. destruct (setting ds "count" _) as [y|q]; [discriminate|]. destruct (qlt q 0 || qlt 1 q) eqn:B; [discriminate|]. apply orb_false_iff in B. rewrite !qlt_false in B. exists q. tauto.
  - intros u v a He Ha. unfold weight_matrix in Ew. destruct (foldM _ (edges_weight g) _) as [w0|e] eqn:Fw; cbn [bind] in Ew; [|discriminate]. apply WN.
    assert (Hin : In (u, v, ANone) (edges_weight g)). { unfold edges_weight. apply in_map_iff. exists (u, v, a). split; [cbn [fst snd]; rewrite Ha; auto|auto]. }
    clear - Fw Hin. revert Fw. generalize (fun _ _ : nat => 0%Qc). induction (edges_weight g) as [|e es IH]; [destruct Hin|]. intros w1 Fw. cbn [foldM] in Fw. destruct (edge_block _ _ _ _ _) as [w2|] eqn:B; [|discriminate]. destruct Hin as [->|Hin]; [|eapply IH; eauto].
    unfold edge_block in B. destruct (lget _ u); [|discriminate]. destruct (lget _ v); [|discriminate]. cbn [bind] in B. destruct (weight_name _) eqn:Q; [reflexivity|discriminate].
  - intros ->. apply WN. unfold weight_matrix in Ew. destruct (foldM _ (edges_weight g) _) as [w0|e] eqn:Fw; cbn [bind] in Ew; [|discriminate]. destruct (weight_name (setting ds "intercept" _)) eqn:Q; [reflexivity|discriminate].
Qed.
End Names.

(** ** generate_continuous_data and generate_binary_data *)

(** The value of the variable [v] in row [i] of an array with one column per node. *)
Definition value (g : graph) (rows : list (list Qc)) (i : nat) (v : label) : Qc := nth (lpos (nodes g) v) (nth i rows []) 0%Qc.
Definition parents (g : graph) (v : label) : list label := map fst (filter (fun e => label_eqb (snd e) v) (edges g)).

Definition plain (t : vtype) : Prop := t = TContinuous \/ t = TBinary.

Lemma plain_text t : plain t -> well_formed (type_text t) /\ (forall k, t <> TCategorical k).
Proof. intros P. split; [exists t; split; auto; destruct P as [->| ->]; discriminate|destruct P as [->| ->]; discriminate]. Qed.

Lemma flat_single {A} (l : list A) : flat_map (fun u => [u]) l = l.
Proof. induction l as [|a l IH]; cbn; [auto|f_equal; auto]. Qed.

Section Plain.
Context (t : vtype) (order : list string) (topo : list label) (dr : sdraws) (g : graph) (n : nat) (di : dist) (noise_std : Qc) (intercept : bool).
Hypothesis Pt : plain t.
Hypothesis Po : Permutation order PERMISSIBLE_TYPES.
Hypothesis W : wf g.
Hypothesis Ac : acyclic (edges g).
Hypothesis Ns : NoDup (map str_of (nodes g)).
Hypothesis Tp : topological g topo.
Hypothesis Up : forall v i, (0 <= sd_poisson dr v i)%R /\ (sd_poisson dr v i < 1)%R.

Lemma plain_types : exists ts, validate_schema (nodes g) (type_text t) [] = Ok (texts ts) /\ no_clash ts /\ Permutation ts (map (fun v => (v, t)) (nodes g)).
Proof.
  destruct (validate_complete (nodes g) (type_text t) [] order) as (r & m & V & [Nr C] & _); [apply plain_text; auto|intros k x []|].
  destruct (plain_text t Pt) as (Wt & Nc).
  assert (Hr : forall k x, In (k, x) r <-> In k (nodes g) /\ x = type_text t) by (intros k x; rewrite C; unfold type_of; cbn; tauto).
  exists (map (fun kx => (fst kx, t)) r). assert (Er : texts (map (fun kx : label * string => (fst kx, t)) r) = r).
  { unfold texts. rewrite map_map. cbn [fst snd]. rewrite <- (map_id r) at 2. apply map_ext_in. intros [k x] Hk. apply Hr in Hk. destruct Hk as [_ ->]. auto. }
  rewrite Er. split; auto.
  assert (P : Permutation (map fst r) (nodes g)). { apply NoDup_Permutation; [exact Nr|eapply NoDup_map_inv; exact Ns|]. intros k. rewrite in_map_iff. split; [intros ([k' x] & <- & H); apply Hr in H; tauto|]. intros H. exists (k, type_text t). split; auto. apply Hr. auto. }
  split; [split|].
  - rewrite map_map. cbn [fst]. rewrite <- (map_map fst str_of). eapply Permutation_NoDup; [|exact Ns]. apply Permutation_map. symmetry. auto.
  - intros c k i v t' Hc _ _ _. apply in_map_iff in Hc. destruct Hc as (? & [= _ E] & _). destruct (Nc k E).
  - rewrite <- (map_map fst (fun v => (v, t))). apply Permutation_map. auto.
Qed.

Lemma plain_key : exists k, dget String.eqb default_distributions (type_text t) = Some k.
Proof. destruct Pt as [->| ->]; eexists; reflexivity. Qed.

Theorem plain_equations junk rows : generate_plain_data (type_text t) order topo junk dr g n di noise_std intercept = Ok rows ->
  List.length rows = n /\ (forall r, In r rows -> List.length r = List.length (nodes g)) /\
  exists b a,
    (forall u v at_, In (u, v, at_) (edges_data g) -> weight_of at_ = ANum (b u v) \/ (weight_of at_ = ANone /\ b u v = sd_weight dr u v 0 0)) /\
    (intercept = false -> forall v, In v (nodes g) -> a v = 0%Qc) /\ (intercept = true -> forall v, In v (nodes g) -> exists j, a v = sd_intercept dr j) /\
    forall v, In v (nodes g) ->
      follows n 0 dr (if has_parents g v then noise_std else 1%Qc) (negb (has_parents g v)) v t
        (fun i _ => (a v + Qsum (fun u => value g rows i u * b u v) (parents g v))%Qc) (fun i _ => value g rows i v).
Proof.
  destruct plain_types as (ts & V & NC & Pts). unfold generate_plain_data. intros H. destruct (sem_generator _ _ _ _ _ _ _ _ _ _ _) as [df|e] eqn:S; cbn [bind] in H; [|discriminate].
  assert (Nds : NoDup (map fst [(type_text t, di)])) by (cbn; constructor; [intros []|constructor]).
  destruct (sem_equations order topo dr g [] (type_text t) noise_std n (Some [(type_text t, di)]) intercept ts Po W Ac V NC Nds Tp Up junk df S) as (Pc & Ln & Lr & b & a & Co & Ai & Eq).
  assert (Hts : forall v, In (v, t) ts <-> In v (nodes g)). { intros v. split; intros Q; [eapply Permutation_in in Q; [|exact Pts]; apply in_map_iff in Q; destruct Q as (v' & [= <-] & Q); auto|]. eapply Permutation_in; [symmetry; exact Pts|]. apply in_map_iff. eauto. }
  assert (Ht : forall v t', In (v, t') ts -> t' = t). { intros v t' Q. eapply Permutation_in in Q; [|exact Pts]. apply in_map_iff in Q. destruct Q as (v' & [= _ <-] & _). auto. }
  assert (Sf : forall v, spec_features (v, t) = [v]) by (intros v; destruct Pt as [->| ->]; reflexivity).
  assert (Pn : Permutation (s_cols df) (nodes g)). { rewrite Pc, (Permutation_flat_map spec_features Pts). replace (flat_map spec_features (map (fun v => (v, t)) (nodes g))) with (nodes g); auto. clear - Sf. induction (nodes g) as [|v l IH]; auto. cbn [map flat_map]. rewrite Sf. cbn. f_equal. auto. }
  assert (Nn : NoDup (nodes g)) by (eapply NoDup_map_inv; exact Ns).
  unfold select_columns in H. pose proof (mapM_length _ _ _ H) as L. apply mapM_ok in H.
  assert (Hrow : forall i, i < n -> List.length (nth i rows []) = List.length (nodes g) /\ forall v, In v (nodes g) -> value g rows i v = cell df i v).
  { intros i Hi. pose proof (Forall2_nth _ _ _ i [] [] H ltac:(lia)) as Q. cbv beta in Q. pose proof (mapM_length _ _ _ Q) as L1. split; auto. intros v Hv. apply mapM_ok in Q. unfold value, cell. apply In_nth_error in Hv. destruct Hv as (j & Hj). rewrite (lpos_nth _ _ _ Nn Hj).
    assert (Lj : j < List.length (nodes g)) by (apply nth_error_Some; congruence). pose proof (Forall2_nth _ _ _ j v 0%Qc Q Lj) as Qj. cbv beta in Qj. rewrite (nth_error_nth _ _ v Hj) in Qj. destruct (dget label_eqb _ v); [|discriminate]. injection Qj as Qj. auto. }
  split; [lia|]. split. { intros r Hr. apply (In_nth _ _ []) in Hr. destruct Hr as (i & Hi & <-). apply Hrow. lia. }
  exists b, a. split; [|split; [|split]].
  - intros u v at_ He. assert (Huv : In (u, v) (edges g)) by (unfold edges; apply in_map_iff; exists (u, v, at_); auto). destruct (edges_nodes g u v W Huv) as [Hu Hv]. specialize (Co u v at_ t t He (proj2 (Hts u) Hu) (proj2 (Hts v) Hv)). cbv zeta in Co. rewrite !Sf in Co. cbn [List.length nth] in Co.
    destruct (weight_of at_) as [q| | |]; try (destruct Co; fail). + left. destruct Co as [Co _]. rewrite Co; auto. + right. split; auto. exact (Co 0 0 ltac:(lia) ltac:(lia)).
  - intros E v Hv. apply (Permutation_in _ (Permutation_sym Pn)) in Hv. apply In_nth_error in Hv. destruct Hv as (j & Hj). rewrite (Ai j v Hj), E. auto.
  - intros E v Hv. apply (Permutation_in _ (Permutation_sym Pn)) in Hv. apply In_nth_error in Hv. destruct Hv as (j & Hj). exists j. rewrite (Ai j v Hj), E. auto.
  - intros v Hv. specialize (Eq v t (proj2 (Hts v) Hv)). cbv zeta in Eq. rewrite Sf in Eq.
    assert (Pp : Permutation (parent_features g ts v) (parents g v)).
    { pose proof (preds_perm g ts (fun u => [u]) v W) as Q. replace (parents g v) with (flat_map (fun u => [u]) (preds g v)). 2:{ exact (flat_single (parents g v)). }
      symmetry. rewrite Q. - unfold parent_features. match goal with |- context [filter ?p ts] => set (l := filter p ts); assert (Hl : forall u tu, In (u, tu) l -> tu = t) by (intros u tu Q'; apply filter_In in Q'; eapply Ht; apply Q') end. clearbody l.
        replace (flat_map (fun vt => [fst vt]) l) with (flat_map spec_features l); auto. induction l as [|[u tu] l IH]; auto. cbn [flat_map fst]. rewrite (Hl u tu) by (left; auto). rewrite Sf. f_equal. apply IH. intros u' tu' Q'. apply (Hl u' tu'). right; auto.
      - destruct NC as [N _]. rewrite <- (map_map fst str_of) in N. eapply NoDup_map_inv; exact N.
      - exact (typed_pred g [] (type_text t) ts W V). }
    assert (Hp : forall u, In u (parents g v) -> In u (nodes g)). { intros u Hu. apply (preds_in g v u) in Hu. apply (edges_nodes g u v W Hu). }
    assert (Z : follows n (zero_inflation (Some [(type_text t, di)])) dr (if has_parents g v then noise_std else 1%Qc) (negb (has_parents g v)) v t
        (fun i _ => (a v + Qsum (fun u => value g rows i u * b u v) (parents g v))%Qc) (fun i _ => value g rows i v)).
    { eapply follows_ext; [|exact Eq]. rewrite Sf. intros i k Hi Hk. cbn [List.length] in Hk. assert (k = 0) by lia. subst k. cbv beta. cbn [nth]. destruct (Hrow i Hi) as [_ R]. split; [|rewrite R; auto]. f_equal. rewrite (Qsum_perm _ _ _ Pp). apply Qsum_ext. intros u Hu. rewrite R; auto. }
    destruct Pt as [E|E]; rewrite E in *; exact Z.
Qed.

Theorem plain_independent junk junk' : generate_plain_data (type_text t) order topo junk dr g n di noise_std intercept = generate_plain_data (type_text t) order topo junk' dr g n di noise_std intercept.
Proof.
  destruct plain_types as (ts & V & NC & Pts). unfold generate_plain_data. erewrite (sem_independent order topo dr g [] (type_text t) noise_std n _ intercept ts Po W Ac V NC _ Tp junk junk'); auto.
  Unshelve. cbn. constructor; [intros []|constructor].
Qed.
End Plain.
