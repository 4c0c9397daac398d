(** * SemGp: nonlinear_sem_generator, and the batches of _gp_index. *)
From Coq Require Import List Bool Arith ZArith Lia String QArith Qcanon Permutation Reals Lra.
From Verif Require Import Base Names Digraph NetModel SmModel SmProofs QcX NotearsModel NotearsProofs TorchModel DiscModel MapperModel MapperProofs MapperThms AcycLink OrdProofs PoisModel PoisProofs GenModel SemModel SemProofs SemThms SemEq SemMain.
Import ListNotations.
Local Open Scope string_scope.
Local Open Scope list_scope.
Local Open Scope nat_scope.

(** ** Specification *)

(** What the random samplers return has the right shape; [gp_sort] is a permutation of the rows. *)
Definition gp_shapes (o : gp_oracle) : Prop :=
  (forall x, List.length (gp_first o x) = List.length x) /\
  (forall xn xo yo, List.length (gp_next o xn xo yo) = List.length xn) /\
  (forall l, Permutation (gp_sort o l) (seq 0 (List.length l))).

(** The sampled function is [h]: row by row, in every batch. *)
Definition gp_function (o : gp_oracle) (h : list Qc -> Qc) : Prop :=
  (forall x, gp_first o x = map h x) /\ (forall xn xo yo, gp_next o xn xo yo = map h xn) /\
  (forall l, Permutation (gp_sort o l) (seq 0 (List.length l))) /\ (forall l l', Permutation l l' -> gp_std o l = gp_std o l').

(** ** Batches *)
Lemma split_sizes_concat {A} sizes : forall l : list A, list_sum sizes = List.length l -> List.concat (split_sizes sizes l) = l.
Proof.
  induction sizes as [|s r IH]; intros l H; unfold list_sum in *; cbn [fold_right split_sizes List.concat] in *; [destruct l; [auto|discriminate]|].
  rewrite IH; [apply firstn_skipn|]. rewrite skipn_length. lia.
Qed.

Lemma sizes_sum n k : forall j, list_sum (map (fun i => if i <? n mod k then S (n / k) else n / k) (seq 0 j)) = j * (n / k) + min j (n mod k).
Proof.
  induction j as [|j IH]; [reflexivity|]. rewrite seq_S, map_app, list_sum_app, IH. cbn [map Nat.add]. unfold list_sum. cbn [fold_right]. destruct (Nat.ltb_spec j (n mod k)); lia.
Qed.

Lemma array_split_concat {A} (l : list A) k : 0 < k -> List.concat (array_split l k) = l.
Proof.
  intros Hk. unfold array_split. apply split_sizes_concat. rewrite sizes_sum. pose proof (Nat.div_mod_eq (List.length l) k). pose proof (Nat.mod_upper_bound (List.length l) k). lia.
Qed.
Lemma array_split_nonempty {A} (l : list A) k : 0 < k -> array_split l k <> [].
Proof. intros Hk. unfold array_split. destruct k; [lia|]. cbn [seq map split_sizes]. discriminate. Qed.

Section Batches.
Context (o : gp_oracle).
Definition batch (s : list (list Qc) * (list (list Qc) * list Qc)) (xn : list (list Qc)) := let y := gp_next o xn (fst (snd s)) (snd (snd s)) in (fst s ++ [y], (xn, y)).

Lemma batches_length rest : (forall xn xo yo, List.length (gp_next o xn xo yo) = List.length xn) -> forall s,
  List.length (List.concat (fst (fold_left batch rest s))) = List.length (List.concat (fst s)) + List.length (List.concat rest).
Proof.
  intros H. induction rest as [|x rest IH]; intros s; cbn [fold_left]; [cbn; lia|]. rewrite IH. unfold batch at 1. cbv zeta. cbn [fst List.concat]. rewrite concat_app, !app_length. cbn [List.concat]. rewrite app_nil_r, H. lia.
Qed.
Lemma batches_map h rest : (forall xn xo yo, gp_next o xn xo yo = map h xn) -> forall s,
  List.concat (fst (fold_left batch rest s)) = List.concat (fst s) ++ map h (List.concat rest).
Proof.
  intros H. induction rest as [|x rest IH]; intros s; cbn [fold_left List.concat map]; [rewrite app_nil_r; auto|]. rewrite IH. unfold batch at 1. cbv zeta. cbn [fst]. rewrite concat_app. cbn [List.concat]. rewrite app_nil_r, H, map_app, app_assoc. auto.
Qed.
End Batches.

Lemma inverse_length l : List.length (inverse l) = List.length l.
Proof. unfold inverse. rewrite map_length, seq_length. auto. Qed.

Lemma gp_index_length o mc nc x l : gp_shapes o -> gp_index o mc nc x = Ok l -> List.length l = List.length x.
Proof.
  intros (S1 & S2 & S3) E. unfold gp_index in E. destruct (nc =? 0); [injection E as <-; rewrite map_length; auto|]. destruct (_ <=? mc).
  - destruct (_ =? 1); [discriminate|]. injection E as <-. unfold scale_y. rewrite map_length. auto.
  - destruct (array_split _ _) as [|x0 rest]; [discriminate|]. injection E as <-. rewrite map_length, inverse_length. specialize (S3 (map (fun r => nth 0 r 0%Qc) x)). apply Permutation_length in S3. rewrite S3, seq_length, map_length. auto.
Qed.

Lemma gp_index_ok o mc nc x : nc = 0 \/ List.length x <> 1 -> 0 < mc -> exists l, gp_index o mc nc x = Ok l.
Proof.
  intros H Hm. unfold gp_index. destruct (Nat.eqb_spec nc 0); eauto. destruct (Nat.leb_spec (List.length x) mc).
  - destruct (Nat.eqb_spec (List.length x) 1); [tauto|eauto].
  - destruct (array_split _ _) eqn:E; eauto. exfalso. revert E. apply array_split_nonempty. lia.
Qed.

(** Sorting by the first parent and back keeps every value with its row. *)
Theorem gp_index_pairs o mc nc x h l : gp_function o h -> 0 < nc -> gp_index o mc nc x = Ok l ->
  l = map (fun r => h r / gp_std o (map h x))%Qc x.
Proof.
  intros (F1 & F2 & F3 & F4) Hn E. unfold gp_index in E. destruct (Nat.eqb_spec nc 0); [lia|]. destruct (_ <=? mc).
  - destruct (_ =? 1); [discriminate|]. injection E as <-. unfold scale_y. rewrite F1, map_map. auto.
  - set (ix := gp_sort o (map (fun r => nth 0 r 0%Qc) x)) in *. assert (P : Permutation ix (seq 0 (List.length x))) by (unfold ix; rewrite <- (map_length (fun r => nth 0 r 0%Qc) x); apply F3).
    assert (Lx : List.length ix = List.length x) by (rewrite (Permutation_length P), seq_length; auto). assert (Nx : NoDup ix) by (eapply Permutation_NoDup; [symmetry; exact P|apply seq_NoDup]).
    destruct (array_split _ _) as [|x0 rest] eqn:Ea; [discriminate|]. injection E as <-.
    assert (Ec : List.concat (x0 :: rest) = map (fun i => nth i x []) ix) by (rewrite <- Ea; apply array_split_concat; lia).
    change (fold_left _ rest _) with (fold_left (batch o) rest ([gp_first o x0], (x0, gp_first o x0))). rewrite (batches_map o h rest F2). cbn [fst List.concat]. rewrite app_nil_r, F1, <- map_app. cbn [List.concat] in Ec. rewrite Ec, map_map.
    unfold scale_y. rewrite map_map. set (sd := gp_std o _). assert (Es : sd = gp_std o (map h x)).
    { unfold sd. apply F4. rewrite <- (map_map (fun i => nth i x []) h). apply Permutation_map. transitivity (map (fun i => nth i x []) (seq 0 (List.length x))); [apply Permutation_map; auto|].
      replace (map (fun i => nth i x []) (seq 0 (List.length x))) with x; auto. apply nth_ext with [] []; [rewrite map_length, seq_length; auto|]. intros i Hi. rewrite nth_map_seq; auto. }
    rewrite <- Es. unfold inverse. rewrite map_map. apply nth_ext with 0%Qc (h [] / sd)%Qc; [rewrite !map_length, seq_length; auto|]. intros i Hi. rewrite map_length, seq_length in Hi.
    rewrite (map_nth (fun r => h r / sd)%Qc). rewrite nth_map_seq by auto.
    destruct (position i ix) as [k|] eqn:Pk.
    + apply position_some in Pk. destruct Pk as [Hk <-]. rewrite (nth_indep _ 0%Qc (h (nth 0 x []) / sd)%Qc) by (rewrite map_length; auto). rewrite (map_nth (fun i => h (nth i x []) / sd)%Qc). auto.
    + apply position_none in Pk. exfalso. apply Pk. eapply Permutation_in; [symmetry; exact P|]. apply in_seq. lia.
Qed.

(** ** The generator *)
Lemma follows_ext n pct dr sc r v t lat val lat' val' : (forall i k, i < n -> k < List.length (spec_features (v, t)) -> lat i k = lat' i k /\ val i k = val' i k) ->
  follows n pct dr sc r v t lat val -> follows n pct dr sc r v t lat' val'.
Proof.
  intros E F. destruct t as [| | |c]; cbn [follows] in *.
  - destruct F as (th & T & F). exists th. split.
    + erewrite map_ext_in; [exact T|]. intros i Hi. apply in_seq in Hi. cbv beta. destruct (E i 0) as [-> _]; auto; cbn; lia.
    + intros i Hi. destruct (E i 0 Hi) as [<- <-]; [cbn; lia|]. auto.
  - intros i Hi. destruct (E i 0 Hi) as [<- <-]; [cbn; lia|]. auto.
  - intros i Hi. destruct (E i 0 Hi) as [<- <-]; [cbn; lia|]. auto.
  - intros i Hi. destruct (F i Hi) as (k & Hk & F1 & F2 & F3). assert (E' : forall k, k < c -> lat i k = lat' i k /\ val i k = val' i k). { intros k' Hk'. apply E; auto. unfold spec_features. cbn [snd]. rewrite map_length, seq_length. auto. }
    exists k. split; auto. split; [|split].
    + intros k' Hk'. destruct (E' k Hk) as [<- _]. destruct (E' k' Hk') as [<- _]. auto.
    + intros k' Hk'. destruct (E' k Hk) as [<- _]. destruct (E' k') as [<- _]; auto. lia.
    + intros k' Hk'. destruct (E' k' Hk') as [_ <-]. auto.
Qed.

Section Nonlinear.
Context (order : list string) (topo : list label) (dr : sdraws) (gp : label -> nat -> gp_oracle) (g : graph) (s : schema) (default : string) (noise_std : Qc) (n : nat) (ds : option (list (string * dist))) (ts : list (label * vtype)).
Hypothesis Po : Permutation order PERMISSIBLE_TYPES.
Hypothesis W : wf g.
Hypothesis Ac : acyclic (edges g).
Hypothesis V : validate_schema (nodes g) default s = Ok (texts ts).
Hypothesis NC : no_clash ts.
Hypothesis Nds : match ds with Some l => NoDup (map fst l) | None => True end.
Hypothesis Tp : topological g topo.
Hypothesis Up : forall v i, (0 <= sd_poisson dr v i)%R /\ (sd_poisson dr v i < 1)%R.
Hypothesis Sh : forall v k, gp_shapes (gp v k).

Local Notation sem junk := (nonlinear_sem_generator order topo junk dr gp g s default noise_std n ds).

Lemma gp_local x y v ps js : same_on n ps x y -> gp_means n gp x v ps js = gp_means n gp y v ps js.
Proof.
  intros S. unfold gp_means. replace (map (fun i => map (x i) ps) (seq 0 n)) with (map (fun i => map (y i) ps) (seq 0 n)); auto.
  apply map_ext_in. intros i Hi. apply in_seq in Hi. apply map_ext_in. intros p Hp. symmetry. apply S; auto. lia.
Qed.
Lemma gp_len x v ps js mu : gp_means n gp x v ps js = Ok mu -> List.length mu = List.length js.
Proof. unfold gp_means. intros E. apply mapM_length in E. rewrite seq_length in E. auto. Qed.

Lemma nl_unfold m ix junk : init_sem order g s default = Ok m -> good ts m ix ->
  sem junk = (do r <- foldM (node_step dr (set_distributions ds) noise_std n (gp_means n gp) g m []) topo junk; Ok (to_frame m n r)).
Proof. intros E GD. unfold nonlinear_sem_generator. rewrite E. reflexivity. Qed.

Theorem nl_independent junk junk' : sem junk = sem junk'.
Proof.
  destruct (setup order g s default ts Po Ac V NC) as (m & ix & E & GD). rewrite !(nl_unfold m ix) by auto.
  apply (run_same ts m ix GD dr (set_distributions ds) noise_std n (gp_means n gp) g []).
  - apply gp_local.
  - apply gp_len.
  - intros u v. exact (typed_pred g s default ts W V u v).
  - auto.
  - eapply typed; eauto.
  - apply Tp.
  - apply Tp.
  - intros i j _ H. destruct H.
Qed.

Lemma gp_means_ok x v ps js : ps = [] \/ n <> 1 -> exists mu, gp_means n gp x v ps js = Ok mu.
Proof.
  intros H. unfold gp_means. destruct (mapM_exists (fun k => gp_index (gp v k) 100 (List.length ps) (map (fun i => map (x i) ps) (seq 0 n))) (fun _ _ => True) (seq 0 (List.length js))) as (mu & E & _); eauto.
  intros k _. destruct (gp_index_ok (gp v k) 100 (List.length ps) (map (fun i => map (x i) ps) (seq 0 n))) as (l & El); eauto; [|lia]. rewrite map_length, seq_length. destruct H as [->|H]; auto.
Qed.

Lemma gp_means_cols x v ps js mu : gp_means n gp x v ps js = Ok mu -> forall k, k < List.length mu -> gp_index (gp v k) 100 (List.length ps) (map (fun i => map (x i) ps) (seq 0 n)) = Ok (nth k mu []) /\ List.length (nth k mu []) = n.
Proof.
  unfold gp_means. intros E k Hk. pose proof (mapM_length _ _ _ E) as L. apply mapM_ok in E. rewrite seq_length in L. pose proof (Forall2_nth _ _ _ k 0 [] E) as F. rewrite seq_length in F. specialize (F ltac:(lia)). rewrite seq_nth in F by lia. cbn [Nat.add] in F. split; auto.
  apply (gp_index_length _ _ _ _ _ (Sh v k)) in F. rewrite F, map_length, seq_length. auto.
Qed.

Theorem nl_accepted junk : accepted g noise_std ds -> edges g = [] \/ n <> 1 -> exists df, sem junk = Ok df.
Proof.
  intros (Hn & Hc & Hb & Hk & _ & _ & (q & Hq & Q0 & Q1) & _) One. destruct (setup order g s default ts Po Ac V NC) as (m & ix & E & GD). rewrite (nl_unfold m ix) by auto.
  destruct (run_ok ts m ix GD dr (set_distributions ds) noise_std n (gp_means n gp) g []) with (topo := topo) (x := junk) as (x' & ->).
  - intros u v. exact (typed_pred g s default ts W V u v).
  - eapply typed; eauto.
  - apply Tp.
  - intros x v t Ht. destruct (gp_means_ok x v (pcols ix g [] v) (ix v)) as (mu & Emu). { destruct One as [One|]; auto. left. unfold pcols, preds. rewrite One. auto. }
    exists mu. cut (exists cs, node_value dr (set_distributions ds) noise_std n g v t mu = Ok cs); [intros (cs & Ecs); exists cs; auto|].
    assert (Lm : List.length mu = List.length (spec_features (v, t))) by (rewrite (gp_len _ _ _ _ _ Emu); eapply ix_length; eauto).
    destruct t as [| | |c]; cbn [node_value].
    + rewrite (setting_ok ds "binary" (DName "logit") Nds eq_refl). destruct (names_ok _ _ Hb ltac:(intros y Hy; cbn in Hy |- *; intuition)) as (x0 & Ex & Ix).
      destruct (add_noise_ok _ noise_std (root g v) (nth 0 mu []) (rows n (fun i => sd_noise dr v i 0)) x0 Ex Ix Hn) as (l & El). cbn [bind]. unfold sample_binary. rewrite El. cbn [bind one_col]. eauto.
    + rewrite (setting_ok ds "continuous" (DName "gaussian") Nds eq_refl). destruct (names_ok _ _ Hc ltac:(intros y Hy; cbn in Hy |- *; intuition)) as (x0 & Ex & Ix).
      destruct (add_noise_ok _ noise_std (root g v) (nth 0 mu []) (rows n (fun i => sd_noise dr v i 0)) x0 Ex Ix Hn) as (l & El). cbn [bind]. rewrite El. cbn [bind one_col]. eauto.
    + rewrite (setting_ok ds "count" (DNum (Q2Qc (1 # 20))) Nds eq_refl), Hq. cbn [bind].
      destruct (count_spec q (root g v) (nth 0 mu []) (rows n (sd_root dr v)) (rows n (sd_zero dr v)) (map (sd_poisson dr v) (seq 0 n)) n Q0 Q1) as (l & El & _); auto using rows_len.
      { apply (gp_means_cols _ _ _ _ _ Emu). rewrite Lm. cbn. lia. } { rewrite map_length, seq_length. auto. } { intros i Hi'. rewrite nth_map_seq by auto. apply Up. }
      rewrite El. cbn [bind one_col]. eauto.
    + rewrite (setting_ok ds "categorical" (DName "logit") Nds eq_refl). destruct (names_ok _ _ Hk ltac:(intros y Hy; cbn in Hy |- *; intuition)) as (x0 & Ex & Ix).
      cbn [bind]. unfold sample_categories. destruct (mapM_exists (fun mz => add_noise (setting ds "categorical" (DName "logit")) noise_std (root g v) (fst mz) (snd mz)) (fun _ _ => True) (combine mu (map (fun k => rows n (fun i => sd_noise dr v i k)) (seq 0 c)))) as (ls & Els & _).
      { intros mz _. destruct (add_noise_ok _ noise_std (root g v) (fst mz) (snd mz) x0 Ex Ix Hn) as (l & El). eauto. }
      rewrite Els. cbn [bind]. apply mapM_length in Els. rewrite combine_length, Lm, map_length, seq_length in Els. unfold spec_features in Els. cbn [snd] in Els. rewrite map_length, seq_length in Els. pose proof (proj2 (validated _ _ _ _ V) v c Ht). destruct ls; [cbn in Els; lia|]. eauto.
  - cbn [bind]. eauto.
Qed.

Theorem nl_equations junk df : sem junk = Ok df ->
  Permutation (s_cols df) (flat_map spec_features ts) /\ List.length (s_rows df) = n /\ (forall r, In r (s_rows df) -> List.length r = List.length (s_cols df)) /\
  forall v t, In (v, t) ts -> exists ps (lat : list (list Qc)), Permutation ps (parent_features g ts v) /\
      let f k := nth k (spec_features (v, t)) v in
      (forall k, k < List.length (spec_features (v, t)) -> gp_index (gp v k) 100 (List.length ps) (map (fun i => map (cell df i) ps) (seq 0 n)) = Ok (nth k lat [])) /\
      follows n (zero_inflation ds) dr (if has_parents g v then noise_std else 1%Qc) (negb (has_parents g v)) v t
        (fun i k => nth i (nth k lat []) 0%Qc) (fun i k => cell df i (f k)).
Proof.
  destruct (setup order g s default ts Po Ac V NC) as (m & ix & E & GD). rewrite (nl_unfold m ix) by auto. intros H.
  destruct (foldM _ topo _) as [x|e] eqn:F; cbn [bind] in H; [|discriminate]. injection H as <-. set (df := to_frame m n x).
  split; [apply (gd_list ts m ix GD)|]. split; [unfold df, to_frame; cbn; rewrite map_length, seq_length; auto|]. split.
  { intros r Hr. unfold df, to_frame in *. cbn [s_cols s_rows] in *. apply in_map_iff in Hr. destruct Hr as (i & <- & _). rewrite map_length, seq_length. auto. }
  pose proof (fl_nodup ts m ix GD) as NF.
  destruct (run_settled ts m ix GD dr (set_distributions ds) noise_std n (gp_means n gp) g []) with (topo := topo) (x := junk) (x' := x) as [_ Sv]; auto.
  { apply gp_local. } { apply gp_len. } { intros u v. exact (typed_pred g s default ts W V u v). } { eapply typed; eauto. } { apply Tp. } { apply Tp. } { intros j []. }
  intros v t Ht. destruct (Sv v t Ht) as (mu & cs & M & Nv & Lc & Xv).
  pose proof (ix_length ts m ix GD v t Ht) as Li. pose proof (gp_len _ _ _ _ _ M) as Lm. pose proof (gp_means_cols _ _ _ _ _ M) as Mc.
  assert (Ecell : forall u tu i k dflt, In (u, tu) ts -> i < n -> k < List.length (ix u) -> cell df i (nth k (spec_features (u, tu)) dflt) = x i (nth k (ix u) 0)). { intros u tu i k dflt Hu Hi Hk. apply cell_frame; auto. eapply ix_nth; eauto. }
  (* the names of the parent columns *)
  set (nm := fun j => nth j (feature_list m) v). exists (map nm (pcols ix g [] v)), mu.
  assert (Enm : forall u tu, In (u, tu) ts -> map nm (ix u) = spec_features (u, tu)).
  { intros u tu Hu. apply nth_ext with v v; [rewrite map_length; eapply ix_length; eauto|]. intros k Hk. rewrite map_length in Hk. rewrite (nth_indep _ v (nm 0)) by (rewrite map_length; auto). rewrite (map_nth nm). unfold nm. apply nth_error_nth. eapply ix_nth; eauto. }
  assert (Bnd : forall p, In p (pcols ix g [] v) -> p < n_features m). { intros p Hp. unfold pcols in Hp. rewrite app_nil_r in Hp. apply in_flat_map in Hp. destruct Hp as (u & Hu & Hp). apply preds_in in Hu. destruct (typed_pred g s default ts W V u v Hu) as (tu & Tu). eapply ix_lt; eauto. }
  assert (Enc : forall i p, i < n -> In p (pcols ix g [] v) -> cell df i (nm p) = x i p). { intros i p Hi Hp. apply cell_frame; auto. unfold nm. apply nth_error_nth'. exact (Bnd p Hp). }
  split; [|split].
  - unfold pcols. rewrite app_nil_r. rewrite (preds_perm g ts ix v W (gd_nodup ts m ix GD) (typed_pred g s default ts W V)). unfold parent_features.
    match goal with |- context [filter ?p ts] => set (l := filter p ts); assert (Hl : forall u tu, In (u, tu) l -> In (u, tu) ts) by (intros u tu Q; apply filter_In in Q; tauto) end. clearbody l.
    replace (map nm (flat_map (fun vt => ix (fst vt)) l)) with (flat_map spec_features l); auto. induction l as [|[u tu] l IH]; auto. cbn [flat_map fst]. rewrite map_app, (Enm u tu) by (apply Hl; left; auto). f_equal. apply IH. intros u' tu' Q. apply Hl. right; auto.
  - intros k Hk. destruct (Mc k ltac:(lia)) as [Mk _]. rewrite map_length, <- Mk. f_equal. apply map_ext_in. intros i Hi. apply in_seq in Hi. rewrite map_map. apply map_ext_in. intros p Hp. apply Enc; auto. lia.
  - rewrite has_parents_root, negb_involutive.
    assert (Pct : dist_of (set_distributions ds) "count" = Ok (DNum (zero_inflation ds)) \/ t <> TCount).
    { destruct t; try (right; discriminate). left. cbn [node_value] in Nv. unfold zero_inflation. rewrite (setting_ok ds "count" (DNum (Q2Qc (1 # 20))) Nds eq_refl) in *. destruct (setting ds "count" _); auto. cbn in Nv. discriminate. }
    pose proof (node_follows dr (set_distributions ds) noise_std n g v (Up v) t mu cs (zero_inflation ds) Pct Nv ltac:(lia) (fun k Hk => proj2 (Mc k Hk))) as FL.
    replace (if negb (root g v) then noise_std else 1%Qc) with (if root g v then 1%Qc else noise_std) by (destruct (root g v); auto).
    eapply follows_ext; [|exact FL]. intros i k Hi Hk. cbv beta. split; auto. rewrite (Ecell v t) by (auto; lia). symmetry. apply Xv; auto. lia.
Qed.
End Nonlinear.

Lemma parent_features_pos g s default ts v : wf g -> validate_schema (nodes g) default s = Ok (texts ts) -> 0 < List.length (parent_features g ts v) <-> has_parents g v = true.
Proof.
  intros W V. destruct (validated _ _ _ _ V) as [Ty Pc]. unfold parent_features, has_parents. rewrite existsb_exists. split.
  - intros H. destruct (filter _ ts) as [|[u tu] l] eqn:E; [cbn in H; lia|]. assert (Q : In (u, tu) (filter (fun vt : label * vtype => existsb (pair_eqb (fst vt, v)) (edges g)) ts)) by (rewrite E; left; auto).
    apply filter_In in Q. destruct Q as [_ Q]. apply existsb_exists in Q. destruct Q as (e & He & Q). destruct (pair_eqb_spec (fst (u, tu), v) e) as [<-|]; [|discriminate]. exists (u, v). split; auto. cbn [snd]. destruct (label_eqb_spec v v); auto.
  - intros ([u w] & He & Q). cbn [snd] in Q. destruct (label_eqb_spec w v) as [->|]; [|discriminate]. destruct (edges_nodes g u v W He) as [Hu _]. apply Ty in Hu. destruct Hu as (tu & Tu).
    assert (I : In (u, tu) (filter (fun vt : label * vtype => existsb (pair_eqb (fst vt, v)) (edges g)) ts)). { apply filter_In. split; auto. apply existsb_exists. exists (u, v). split; auto. cbn [fst]. destruct (pair_eqb_spec (u, v) (u, v)); congruence. }
    assert (P : exists x, In x (spec_features (u, tu))). { destruct tu as [| | |c]; try (exists u; left; reflexivity). specialize (Pc u c Tu). exists (LStr (part_name (str_of u) 0)). unfold spec_features. cbn [snd fst]. apply in_map_iff. exists 0. split; auto. apply in_seq. lia. }
    destruct P as (x & Px). assert (Q' : In x (flat_map spec_features (filter (fun vt : label * vtype => existsb (pair_eqb (fst vt, v)) (edges g)) ts))) by (apply in_flat_map; eauto). destruct (flat_map _ _); [destruct Q'|cbn; lia].
Qed.
