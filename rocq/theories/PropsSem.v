(** * PropsSem: data of structural equation models (C45, C67 - C70). *)
From Coq Require Import List Bool Arith ZArith Lia String QArith Qcanon Permutation Reals Lra.
From Verif Require Import Base Names Digraph NetModel SmModel SmProofs QcX NotearsModel NotearsProofs TorchModel DiscModel MapperModel MapperProofs MapperThms AcycLink OrdProofs PoisModel PoisProofs GenModel SemModel SemProofs SemThms SemEq SemMain SemGp SemBin SemWrap.
Import ListNotations.
Local Open Scope string_scope.
Local Open Scope list_scope.
Local Open Scope nat_scope.

(** What holds whenever a generator is called with a DAG and a valid schema without clashing names: [order] is
    the order of the set of types, [topo] the topological order, [ts] the completed schema. *)
Definition valid_call (order : list string) (topo : list label) (dr : sdraws) (g : graph) (s : schema) (default : string) (ds : option (list (string * dist))) (ts : list (label * vtype)) : Prop :=
  Permutation order PERMISSIBLE_TYPES /\ wf g /\ acyclic (edges g) /\ validate_schema (nodes g) default s = Ok (texts ts) /\ no_clash ts /\
  (match ds with Some l => NoDup (map fst l) | None => True end) /\ topological g topo /\ (forall v i, (0 <= sd_poisson dr v i)%R /\ (sd_poisson dr v i < 1)%R).

(** ** C45 *)

(** The content of the uninitialised array does not matter. *)
Theorem C45_independent_partial : forall order topo dr g s default noise_std n ds intercept ts, valid_call order topo dr g s default ds ts -> forall junk junk',
  sem_generator order topo junk dr g s default noise_std n ds intercept = sem_generator order topo junk' dr g s default noise_std n ds intercept.
Proof. intros order topo dr g s default noise_std n ds intercept ts (Po & W & Ac & V & NC & Nds & Tp & Up) junk junk'. eapply sem_independent; eauto. Qed.
Print Assumptions C45_independent_partial.

(** Documented arguments give data. *)
Theorem C45_succeeds_partial : forall order topo dr g s default noise_std n ds intercept ts, valid_call order topo dr g s default ds ts -> forall junk,
  accepted g noise_std ds -> exists df, sem_generator order topo junk dr g s default noise_std n ds intercept = Ok df.
Proof. intros order topo dr g s default noise_std n ds intercept ts (Po & W & Ac & V & NC & Nds & Tp & Up) junk. eapply sem_accepted; eauto. Qed.
Print Assumptions C45_succeeds_partial.

(** The columns are the features, and every variable follows its structural equation: the latent mean is the
    intercept plus the weighted sum of the parents' columns. *)
Theorem C45_equations_partial : forall order topo dr g s default noise_std n ds intercept ts, valid_call order topo dr g s default ds ts -> forall junk df,
  sem_generator order topo junk dr g s default noise_std n ds intercept = Ok df ->
  Permutation (s_cols df) (flat_map spec_features ts) /\ List.length (s_rows df) = n /\ (forall r, In r (s_rows df) -> List.length r = List.length (s_cols df)) /\
  exists b a, coefficients dr g ts b /\ (forall j f, nth_error (s_cols df) j = Some f -> a f = if intercept then sd_intercept dr j else 0%Qc) /\
    forall v t, In (v, t) ts ->
      let f k := nth k (spec_features (v, t)) v in
      follows n (zero_inflation ds) dr (if has_parents g v then noise_std else 1%Qc) (negb (has_parents g v)) v t
        (fun i k => (a (f k) + Qsum (fun p => cell df i p * b p (f k)) (parent_features g ts v))%Qc) (fun i k => cell df i (f k)).
Proof. intros order topo dr g s default noise_std n ds intercept ts (Po & W & Ac & V & NC & Nds & Tp & Up) junk df. eapply sem_equations; eauto. Qed.
Print Assumptions C45_equations_partial.

(** In particular: binary columns are 0 or 1 and exactly one category is set in every row. *)
Theorem C45_coding_partial : forall order topo dr g s default noise_std n ds intercept ts, valid_call order topo dr g s default ds ts -> forall junk df,
  sem_generator order topo junk dr g s default noise_std n ds intercept = Ok df -> forall i, i < n ->
  (forall v, In (v, TBinary) ts -> cell df i v = 0%Qc \/ cell df i v = 1%Qc) /\
  (forall v c, In (v, TCategorical c) ts -> exists k, k < c /\ forall k', k' < c -> cell df i (nth k' (spec_features (v, TCategorical c)) v) = if k' =? k then 1%Qc else 0%Qc) /\
  (forall v, In (v, TCount) ts -> exists k, k <= Z.to_nat 5000 /\ cell df i v = Q2Qc (inject_Z (Z.of_nat k))).
Proof.
  intros order topo dr g s default noise_std n ds intercept ts ST junk df E i Hi. destruct (C45_equations_partial _ _ _ _ _ _ _ _ _ _ _ ST junk df E) as (_ & _ & _ & b & a & _ & _ & F). split; [|split].
  - intros v Hv. destruct (F v _ Hv) as (th & _ & Q). destruct (Q i Hi) as [[Q' _]|[Q' _]]; auto.
  - intros v c Hv. destruct (F v _ Hv i Hi) as (k & Hk & _ & _ & Q). eauto.
  - intros v Hv. destruct (F v _ Hv i Hi) as [[_ Q]|[_ (k & rate & Q & (Sk & _) & _)]]; [exists 0; split; [lia|exact Q]|exists k; split; [exact Sk|exact Q]].
Qed.
Print Assumptions C45_coding_partial.

(** Without the condition on names the data are whatever the memory contains: the feature a_0 of the
    categorical variable a is also the name of a continuous variable. *)
Definition no_draws : sdraws := mkSdraws (fun _ _ _ _ => 1%Qc) (fun _ _ i j => Q2Qc (inject_Z (Z.of_nat (i + j)))) (fun _ => 0%Qc) (fun v i k => Q2Qc (inject_Z (Z.of_nat (i + k) - 1))) (fun _ _ => 0%Qc) (fun _ _ => 0%Qc) (fun _ _ => 0%R).
Definition clash_graph : graph := [(LStr "a", []); (LStr "a_0", [])].
Theorem C45_clash_refuted : exists junk junk' df df',
  accepted clash_graph 1 None /\ topological clash_graph [LStr "a"; LStr "a_0"] /\
  sem_generator PERMISSIBLE_TYPES [LStr "a"; LStr "a_0"] junk no_draws clash_graph [(LStr "a", "categorical:2")] "continuous" 1 2 None true = Ok df /\
  sem_generator PERMISSIBLE_TYPES [LStr "a"; LStr "a_0"] junk' no_draws clash_graph [(LStr "a", "categorical:2")] "continuous" 1 2 None true = Ok df' /\
  df <> df'.
Proof.
  exists (fun _ _ => 0%Qc), (fun _ _ => 1%Qc). do 2 eexists. split; [|split; [|split; [|split]]]; cycle 2.
  - vm_compute. reflexivity.
  - vm_compute. reflexivity.
  - vm_compute. discriminate.
  - split; [discriminate|]. split; [eexists; split; [reflexivity|cbn; auto]|]. split; [eexists; split; [reflexivity|cbn; auto]|]. split; [eexists; split; [reflexivity|cbn; auto]|]. split; [eexists; split; [reflexivity|cbn; auto]|]. split; [eexists; split; [reflexivity|cbn; auto]|].
    split; [eexists; split; [reflexivity|split; discriminate]|]. intros u v a H. vm_compute in H. destruct H.
  - split; [reflexivity|]. intros l1 v l2 _ u H. vm_compute in H. destruct H.
Qed.
Print Assumptions C45_clash_refuted.

(** A call that meets the hypotheses: a categorical variable with two children, one of them a count, and a
    binary variable apart. *)
Definition ex_w (q : Qc) : attrs := [("weight", ANum q)].
Definition ex_graph : graph :=
  [(LStr "a", [(LStr "b", ex_w (Q2Qc 2)); (LStr "c", [])]); (LStr "b", [(LStr "c", ex_w 1%Qc)]); (LStr "c", []); (LStr "d", [])].
Definition ex_schema : schema := [(LStr "a", "categorical:2"); (LStr "c", "count"); (LStr "d", "binary")].
Definition ex_ts : list (label * vtype) := [(LStr "a", TCategorical 2); (LStr "b", TContinuous); (LStr "c", TCount); (LStr "d", TBinary)].
Definition ex_topo : list label := [LStr "d"; LStr "a"; LStr "b"; LStr "c"].
Lemma ex_topological : topological ex_graph ex_topo.
Proof.
  split.
  - change (nodes ex_graph) with [LStr "a"; LStr "b"; LStr "c"; LStr "d"]. apply (Permutation_cons_append [LStr "a"; LStr "b"; LStr "c"] (LStr "d")).
  - intros l1 v l2 E u H. vm_compute in H. destruct l1 as [|x1 [|x2 [|x3 [|x4 l1]]]]; cbn in E; injection E; intros; subst; cbn;
      repeat match goal with H : _ \/ _ |- _ => destruct H as [H|H] | H : False |- _ => destruct H | H : (_, _) = (_, _) |- _ => inversion H; subst; clear H end; auto.
    all: exfalso; match goal with H : [] = _ ++ _ :: _ |- _ => destruct l1; discriminate H end.
Qed.
Example C45_met : valid_call PERMISSIBLE_TYPES ex_topo no_draws ex_graph ex_schema "continuous" None ex_ts /\ accepted ex_graph 1 None /\ has_parents ex_graph (LStr "c") = true.
Proof.
  split; [|split].
  - split; [reflexivity|]. split; [|split; [|split; [|split; [|split; [|split]]]]].
    + change ex_graph with (add_node (put_edge (put_edge (put_edge [] (LStr "a") (LStr "b") (ex_w (Q2Qc 2)) []) (LStr "a") (LStr "c") [] []) (LStr "b") (LStr "c") (ex_w 1%Qc) []) (LStr "d")).
      apply wf_add_node, wf_put_edge, wf_put_edge, wf_put_edge, wf_nil.
    + apply (is_dag_acyclic label_eqb label_eqb_spec). vm_compute. reflexivity.
    + vm_compute. reflexivity.
    + split; [cbn; repeat constructor; cbn; intuition discriminate|]. intros c n i v t H Hi Hv N. cbn in H, Hv.
      repeat match goal with H : _ \/ _ |- _ => destruct H as [H|H] | H : False |- _ => destruct H | H : (_, _) = (_, _) |- _ => inversion H; subst; clear H end; try (exfalso; apply (N 2); reflexivity); destruct i as [|[|i]]; try lia; vm_compute; discriminate.
    + exact I.
    + exact ex_topological.
    + intros v i. cbn. lra.
  - split; [discriminate|]. split; [eexists; split; [reflexivity|cbn; auto]|]. split; [eexists; split; [reflexivity|cbn; auto]|]. split; [eexists; split; [reflexivity|cbn; auto]|]. split; [eexists; split; [reflexivity|cbn; auto]|]. split; [eexists; split; [reflexivity|cbn; auto]|].
    split; [eexists; split; [reflexivity|split; discriminate]|]. intros u v a H. cbn in H. destruct H as [[= <- <- <-]|[[= <- <- <-]|[[= <- <- <-]|[]]]]; cbn; eauto.
  - reflexivity.
Qed.
(** A run without the count variable. *)
Example C45_run : exists df, sem_generator PERMISSIBLE_TYPES [LStr "a"; LStr "b"] (fun _ _ => 0%Qc) no_draws [(LStr "a", [(LStr "b", ex_w (Q2Qc 2))]); (LStr "b", [])] [(LStr "a", "categorical:2")] "continuous" 1 2 None true = Ok df /\
  s_cols df = [LStr "b"; LStr "a_0"; LStr "a_1"] /\ map (map this) (s_rows df) = [[(-1) # 1; 0 # 1; 1 # 1]; [0 # 1; 0 # 1; 1 # 1]]%Q.
Proof. eexists. split; [vm_compute; reflexivity|]. split; reflexivity. Qed.

(** ** C67: binary labels *)

(** Among two or more distinct latent values both labels occur, each in about 5% of the rows or more. *)
Theorem C67_both_partial : forall d noise_std root mean z l, sample_binary d noise_std root mean z = Ok l -> List.length z = List.length mean ->
  exists lat, add_noise d noise_std root mean z = Ok lat /\ List.length lat = List.length l /\
    (forall i j, i < List.length l -> j < List.length l -> (nth i lat 0 <= nth j lat 0)%Qc -> (nth i l 0 <= nth j l 0)%Qc) /\
    (let pos := List.length (filter (qlt 0) lat) in List.length l <= 20 * pos -> 20 * pos <= 19 * List.length l -> l = map (fun x => if qlt 0 x then 1%Qc else 0%Qc) lat) /\
    (NoDup lat -> 2 <= List.length l ->
       let ones := List.length (filter (Qc_eq_bool 1) l) in let zeros := List.length (filter (Qc_eq_bool 0) l) in
       ones + zeros = List.length l /\ 0 < ones /\ 0 < zeros /\ List.length l <= 20 * ones + 1 /\ List.length l <= 20 * zeros).
Proof.
  intros d noise_std root mean z l E Lz. unfold sample_binary in E. destruct (add_noise d noise_std root mean z) as [lat|e]; cbn [bind] in E; [|discriminate]. injection E as <-. exists lat. split; auto.
  destruct (binary_spec lat) as (th & T & Eb). assert (L : List.length (binary_labels lat) = List.length lat) by (rewrite Eb; unfold above; apply map_length). split; auto. rewrite L. split; [|split].
  - intros i j Hi Hj. apply labels_mono; auto.
  - cbv zeta. intros H1 H2. rewrite Eb. destruct T as (_ & _ & T3). rewrite (T3 H1 H2). unfold above. apply map_ext. intros x. reflexivity.
  - intros N H2. cbv zeta. pose proof (both_labels lat th T N H2) as B. cbv zeta in B.
    assert (C : forall l, List.length (filter (Qc_eq_bool 1) (above th l)) = List.length (filter (qlt th) l) /\ List.length (filter (Qc_eq_bool 0) (above th l)) = List.length l - List.length (filter (qlt th) l)).
    { clear. induction l as [|x l [IH1 IH2]]; [split; reflexivity|]. unfold above in *. cbn [map filter]. pose proof (filter_length_le (qlt th) l). destruct (qlt th x); cbn [indicator]. 
      - change (Qc_eq_bool 1 1) with true. change (Qc_eq_bool 0 1) with false. cbn [List.length]. lia.
      - change (Qc_eq_bool 1 0) with false. change (Qc_eq_bool 0 0) with true. cbn [List.length]. lia. }
    rewrite Eb. destruct (C lat) as [C1 C2]. rewrite C1, C2. pose proof (filter_length_le (qlt th) lat). lia.
Qed.
Print Assumptions C67_both_partial.

Definition q_of (z : Z) : Qc := Q2Qc (inject_Z z).
(** Of 40 rows with one positive latent value 38 get the label 1. *)
Theorem C67_majority_refuted : exists lat l,
  sample_binary (DName "logit") 0 false lat (map (fun _ => 0%Qc) lat) = Ok l /\ List.length lat = 40 /\ List.length (filter (qlt 0) lat) = 1 /\ List.length (filter (Qc_eq_bool 1) l) = 38.
Proof. exists (map (fun k => q_of (Z.of_nat k - 38)) (seq 0 40)). eexists. split; [vm_compute; reflexivity|]. split; [|split]; vm_compute; reflexivity. Qed.
Print Assumptions C67_majority_refuted.
(** Equal latent values all get the label 0, whatever their sign. *)
Theorem C67_constant_refuted : forall (n : nat) (q : Qc), (0 < n)%nat ->
  let lat := repeat q n in sample_binary (DName "logit") 0 false lat (map (fun _ => 0%Qc) lat) = Ok (map (fun _ => 0%Qc) lat).
Proof.
  intros n q Hn. cbv zeta. unfold sample_binary, add_noise. change (noise_scale (DName "logit") 0 false) with (@Ok Qc 0%Qc). cbn [bind].
  assert (E : map (fun mz : Qc * Qc => (fst mz + 0 * snd mz)%Qc) (combine (repeat q n) (map (fun _ => 0%Qc) (repeat q n))) = repeat q n). { clear Hn. induction n as [|n IH]; cbn [repeat map combine]; [auto|]. f_equal; [cbn [fst snd]; ring|auto]. }
  rewrite E. f_equal. apply constant_labels; auto.
Qed.
Print Assumptions C67_constant_refuted.

(** ** C68: names of distributions *)

(** If there is an answer, the settings that were used are among the known ones. *)
Theorem C68_checked_partial : forall order topo dr g s default noise_std n ds intercept ts, valid_call order topo dr g s default ds ts -> forall junk df,
  sem_generator order topo junk dr g s default noise_std n ds intercept = Ok df ->
  (forall v, In (v, TContinuous) ts -> sampled_name (setting ds "continuous" (DName "gaussian"))) /\
  (forall v, In (v, TBinary) ts -> sampled_name (setting ds "binary" (DName "logit"))) /\
  (forall v c, In (v, TCategorical c) ts -> sampled_name (setting ds "categorical" (DName "logit"))) /\
  (forall v, In (v, TCount) ts -> exists q, setting ds "count" (DNum (Q2Qc (1 # 20))) = DNum q /\ (0 <= q)%Qc /\ (q <= 1)%Qc) /\
  (forall u v a, In (u, v, a) (edges_data g) -> weight_of a = ANone -> exists x, setting ds "weight" (DName "uniform") = DName x /\ In x ["uniform"; "gaussian"; "normal"]) /\
  (intercept = true -> exists x, setting ds "intercept" (DName "uniform") = DName x /\ In x ["uniform"; "gaussian"; "normal"]).
Proof. intros order topo dr g s default noise_std n ds intercept ts (Po & W & Ac & V & NC & Nds & Tp & Up) junk df E. exact (names_checked order topo dr g s default noise_std n ds intercept ts Po W Ac V NC Nds Tp junk df E). Qed.
Print Assumptions C68_checked_partial.

(** Documented to raise ValueError, but accepted: another name for binary variables, and any name for types and
    settings that are not used. *)
Theorem C68_accepted_refuted : exists df, sem_generator PERMISSIBLE_TYPES [LStr "a"] (fun _ _ => 0%Qc) no_draws [(LStr "a", [])] [(LStr "a", "binary")] "continuous" 1 3
    (Some [("binary", DName "exponential"); ("continuous", DName "nonsense"); ("weight", DName "nonsense"); ("intercept", DName "nonsense"); ("count", DName "nonsense")]) false = Ok df /\ List.length (s_rows df) = 3.
Proof. eexists. split; [vm_compute; reflexivity|reflexivity]. Qed.
Print Assumptions C68_accepted_refuted.

(** ** C69: nonlinear data *)
Theorem C69_independent_partial : forall order topo dr gp g s default noise_std n ds ts, valid_call order topo dr g s default ds ts -> forall junk junk',
  nonlinear_sem_generator order topo junk dr gp g s default noise_std n ds = nonlinear_sem_generator order topo junk' dr gp g s default noise_std n ds.
Proof. intros order topo dr gp g s default noise_std n ds ts (Po & W & Ac & V & NC & Nds & Tp & Up) junk junk'. eapply nl_independent; eauto. Qed.
Print Assumptions C69_independent_partial.

Theorem C69_succeeds_partial : forall order topo dr gp g s default noise_std n ds ts, valid_call order topo dr g s default ds ts -> (forall v k, gp_shapes (gp v k)) -> forall junk,
  accepted g noise_std ds -> edges g = [] \/ n <> 1 -> exists df, nonlinear_sem_generator order topo junk dr gp g s default noise_std n ds = Ok df.
Proof. intros order topo dr gp g s default noise_std n ds ts (Po & W & Ac & V & NC & Nds & Tp & Up) Sh junk. eapply nl_accepted; eauto. Qed.
Print Assumptions C69_succeeds_partial.

(** If the sampler of feature k of every node evaluates a function [h v k], every variable with parents follows
    the equation with latent mean [h v k] of the parents' values in the same row, scaled to variance 1; more
    than 100 rows are sorted and sampled in batches. *)
Theorem C69_equations_partial : forall order topo dr gp g s default noise_std n ds ts, valid_call order topo dr g s default ds ts -> (forall v k, gp_shapes (gp v k)) -> forall junk df h,
  (forall v k, gp_function (gp v k) (h v k)) -> nonlinear_sem_generator order topo junk dr gp g s default noise_std n ds = Ok df ->
  Permutation (s_cols df) (flat_map spec_features ts) /\ List.length (s_rows df) = n /\ (forall r, In r (s_rows df) -> List.length r = List.length (s_cols df)) /\
  forall v t, In (v, t) ts -> exists ps sd, Permutation ps (parent_features g ts v) /\
      let f k := nth k (spec_features (v, t)) v in
      follows n (zero_inflation ds) dr (if has_parents g v then noise_std else 1%Qc) (negb (has_parents g v)) v t
        (fun i k => if has_parents g v then h v k (map (cell df i) ps) / sd k else 0)%Qc (fun i k => cell df i (f k)) /\
      forall k, sd k = gp_std (gp v k) (map (fun i => h v k (map (cell df i) ps)) (seq 0 n)).
Proof.
  intros order topo dr gp g s default noise_std n ds ts (Po & W & Ac & V & NC & Nds & Tp & Up) Sh junk df h Hh E.
  destruct (nl_equations order topo dr gp g s default noise_std n ds ts Po W Ac V NC Nds Tp Up Sh junk df E) as (P & Ln & Lr & F). split; auto. split; auto. split; auto.
  intros v t Ht. destruct (F v t Ht) as (ps & lat & Pp & L & Fo). exists ps, (fun k => gp_std (gp v k) (map (fun i => h v k (map (cell df i) ps)) (seq 0 n))). split; auto. cbv zeta in *. split; auto.
  eapply follows_ext; [|exact Fo]. intros i k Hi Hk. cbv beta. split; auto. specialize (L k Hk).
  assert (Hps : (0 < List.length ps) <-> has_parents g v = true). { rewrite (Permutation_length Pp). eapply parent_features_pos; eauto. }
  destruct (has_parents g v).
  - rewrite (gp_index_pairs (gp v k) 100 (List.length ps) _ (h v k) _ (Hh v k) (proj2 Hps eq_refl) L). rewrite !map_map. rewrite nth_map_seq by auto. reflexivity.
  - assert (L0 : List.length ps = 0) by (destruct (List.length ps); auto; destruct Hps as [Hps _]; discriminate (Hps ltac:(lia))). rewrite L0 in L. unfold gp_index in L. cbn [Nat.eqb] in L. injection L as <-. rewrite map_map. rewrite nth_map_seq by auto. auto.
Qed.
Print Assumptions C69_equations_partial.

(** One sample of a variable with a parent: IndexError. *)
Theorem C69_one_sample_refuted : forall gp, nonlinear_sem_generator PERMISSIBLE_TYPES [LStr "a"; LStr "b"] (fun _ _ => 0%Qc) no_draws gp [(LStr "a", [(LStr "b", [])]); (LStr "b", [])] [] "continuous" 1 1 None = Err IndexError.
Proof. intros gp. vm_compute. reflexivity. Qed.
Print Assumptions C69_one_sample_refuted.

(** A sampler with a function of the rows: twice the first value minus the last. *)
Definition ex_gp : gp_oracle := mkGp (map (fun r => q_of 2 * nth 0 r 0 - last r 0)%Qc) (fun xn _ _ => map (fun r => q_of 2 * nth 0 r 0 - last r 0)%Qc xn) (fun _ => 1%Qc) (fun l => seq 0 (List.length l)).
Example C69_met : gp_shapes ex_gp /\ gp_function ex_gp (fun r => q_of 2 * nth 0 r 0 - last r 0)%Qc.
Proof. split; [split; [intros; apply map_length|split; [intros; apply map_length|reflexivity]]|split; [reflexivity|split; [reflexivity|split; [reflexivity|reflexivity]]]]. Qed.
(** Batches of two: the rows are sorted, sampled and put back. *)
Example C69_batches : gp_index (mkGp (map (fun r => nth 0 r 0%Qc)) (fun xn _ _ => map (fun r => nth 0 r 0%Qc) xn) (fun _ => 1%Qc) (fun _ => [2; 0; 1; 3])) 2 1 [[q_of 5]; [q_of 7]; [q_of 1]; [q_of 9]] = Ok [q_of 5; q_of 7; q_of 1; q_of 9].
Proof. vm_compute. reflexivity. Qed.

(** ** C70: one column per node, in the order of the nodes *)
Theorem C70_plain_data : forall t order topo dr g n di noise_std intercept, t = TContinuous \/ t = TBinary -> Permutation order PERMISSIBLE_TYPES -> wf g -> acyclic (edges g) ->
  NoDup (map str_of (nodes g)) -> topological g topo -> (forall v i, (0 <= sd_poisson dr v i)%R /\ (sd_poisson dr v i < 1)%R) -> forall junk rows,
  generate_plain_data (type_text t) order topo junk dr g n di noise_std intercept = Ok rows ->
  (forall junk', generate_plain_data (type_text t) order topo junk' dr g n di noise_std intercept = Ok rows) /\
  List.length rows = n /\ (forall r, In r rows -> List.length r = List.length (nodes g)) /\
  exists b a,
    (forall u v at_, In (u, v, at_) (edges_data g) -> weight_of at_ = ANum (b u v) \/ (weight_of at_ = ANone /\ b u v = sd_weight dr u v 0 0)) /\
    (intercept = false -> forall v, In v (nodes g) -> a v = 0%Qc) /\ (intercept = true -> forall v, In v (nodes g) -> exists j, a v = sd_intercept dr j) /\
    forall v, In v (nodes g) ->
      follows n 0 dr (if has_parents g v then noise_std else 1%Qc) (negb (has_parents g v)) v t
        (fun i _ => (a v + Qsum (fun u => value g rows i u * b u v) (parents g v))%Qc) (fun i _ => value g rows i v).
Proof.
  intros t order topo dr g n di noise_std intercept Pt Po W Ac Ns Tp Up junk rows E. split.
  - intros junk'. rewrite <- E. apply plain_independent; auto.
  - eapply plain_equations; eauto.
Qed.
Print Assumptions C70_plain_data.
Example C70_run : exists rows, generate_plain_data "continuous" PERMISSIBLE_TYPES [LStr "b"; LStr "a"] (fun _ _ => 0%Qc) no_draws [(LStr "a", []); (LStr "b", [(LStr "a", ex_w (q_of 2))])] 3 (DName "gumbel") 1 false = Ok rows /\
  map (map this) rows = [[(-3) # 1; (-1) # 1]; [0 # 1; 0 # 1]; [3 # 1; 1 # 1]]%Q.
Proof. eexists. split; [vm_compute; reflexivity|reflexivity]. Qed.
