(** * RefuseGen: the exceptions that the data generators raise for unusable arguments. *)
From Coq Require Import List Bool Arith ZArith Lia String QArith Qcanon Permutation Sorted Reals.
From Verif Require Import Base Names Digraph NetModel SmModel SmProofs QcX NotearsModel NotearsProofs TorchModel MapperModel MapperThms GenModel GenProofs DynGenModel DynGenProofs DynGenData DynGenNames DynGenThms.
From Verif Require DiscModel SemModel SemProofs SemThms SemEq SemMain SemWrap PropsSem.
Import ListNotations.
Local Open Scope string_scope.
Local Open Scope list_scope.
Local Open Scope nat_scope.

(** ** generate_dataframe_dynamic *)

(** The nodes of the current period (with "_lag0" in the name) and the others. *)
Definition periods (g : graph) (cur lag : list string) : Prop :=
  Permutation (nodes g) (map LStr (cur ++ lag)) /\ (forall c, In c cur -> substring_of "_lag0" c) /\ (forall c, In c lag -> ~ substring_of "_lag0" c).

(** An edge has a weight that is not a number. *)
Definition odd_weight (g : graph) : Prop := exists u v a w, In (u, v, a) (edges_data g) /\ aget a "weight" = Some w /\ forall q, w <> ANum q.

Lemma numeric_odd a : numeric a = Ok tt \/ numeric a = Err TypeError /\ exists w, aget a "weight" = Some w /\ forall q, w <> ANum q.
Proof. unfold numeric. destruct (aget a "weight") as [[q|s| |z]|]; auto; right; (split; [reflexivity|]); eexists; (split; [reflexivity|]); discriminate. Qed.

Lemma node_text_int l : (exists z, In (LInt z) l) -> mapM node_text l = Err TypeError.
Proof.
  intros (z & H). apply (mapM_err node_text TypeError); [|exists (LInt z); auto]. intros [y|s] _; cbn; eauto.
Qed.

Lemma numeric_all g : ~ odd_weight g -> exists us, mapM (fun e : label * label * attrs => numeric (snd e)) (edges_data g) = Ok us.
Proof.
  unfold odd_weight. intros H. induction (edges_data g) as [|[[u v] a] l IH]; cbn; [eauto|]. destruct (numeric_odd a) as [->|(_ & w & E & N)].
  - cbn. destruct IH as (us & ->); [intros (u' & v' & a' & w' & I & R); apply H; exists u', v', a', w'; split; [right; auto|auto]|]. cbn. eauto.
  - exfalso. apply H. exists u, v, a, w. split; [left; auto|auto].
Qed.

Section Dynamic.
  Variables (order : qmat -> nat -> list nat) (noise : qmat) (g : graph) (n_samples burn_in : nat) (sem_type : string) (scale : Qc) (drift : option (list Qc)).
  Let r := generate_dataframe_dynamic order noise g n_samples burn_in sem_type scale drift.

  Lemma dyn_type : ~ In sem_type ["linear-gauss"; "linear-exp"; "linear-gumbel"] -> r = Err ValueError.
  Proof. intros N. unfold r, generate_dataframe_dynamic. destruct (smem sem_type _) eqn:E; [apply smem_In in E; contradiction|reflexivity]. Qed.

  Hypothesis Hs : In sem_type ["linear-gauss"; "linear-exp"; "linear-gumbel"].

  Lemma dyn_kinds : (exists z, In (LInt z) (nodes g)) \/ odd_weight g -> r = Err TypeError.
  Proof.
    intros H. unfold r, generate_dataframe_dynamic. apply smem_In in Hs. rewrite Hs. cbn [negb].
    destruct (mapM node_text (nodes g)) as [names|e] eqn:En; cbn [bind].
    - destruct H as [H|H]; [rewrite (node_text_int _ H) in En; discriminate|].
      rewrite (mapM_err _ TypeError); [reflexivity| |].
      + intros [[u v] a] _. cbn [snd]. destruct (numeric_odd a) as [->|(-> & _)]; eauto.
      + destruct H as (u & v & a & w & I & E & N). exists (u, v, a). split; [exact I|]. cbn [snd]. unfold numeric. rewrite E. destruct w as [q| | |]; auto. exfalso. apply (N q). reflexivity.
    - f_equal.
      clear - En. revert e En. induction (nodes g) as [|[z|s] l IH]; intros e E; cbn in E; [discriminate|congruence|]. destruct (mapM node_text l); cbn in E; [discriminate|]. injection E as <-. apply IH. reflexivity.
  Qed.

  Variables (cur lag : list string).
  Hypothesis Wg : wf g.
  Hypothesis P : periods g cur lag.
  Hypothesis NW : ~ odd_weight g.

  Lemma filter_parts (f : string -> bool) l : Permutation (filter f l ++ filter (fun s => negb (f s)) l) l.
  Proof. induction l as [|x l IH]; cbn; auto. destruct (f x); cbn; [constructor; auto|]. etransitivity; [symmetry; apply Permutation_middle|]. constructor. auto. Qed.

  Lemma filter_Perm (f : string -> bool) l l' : Permutation l l' -> Permutation (filter f l) (filter f l').
  Proof. induction 1; cbn; auto; try (destruct (f x)); try (destruct (f y)); auto; try constructor; auto. etransitivity; eauto. Qed.

  Lemma period_run : exists names intra inter, run g names intra inter /\ List.length intra = List.length cur /\ List.length inter = List.length lag.
  Proof.
    destruct P as (P0 & P1 & P2). assert (X : exists names, nodes g = map LStr names /\ Permutation (cur ++ lag) names) by (apply (Permutation_map_inv LStr) in P0; destruct P0 as (names & En & Pn); exists names; split; auto using Permutation_sym).
    destruct X as (names & En & Pn).
    exists names, (ssort (filter current names)), (ssort (filter (fun s => negb (current s)) names)). split; [split; auto|]. unfold ssort. rewrite !isort_length.
    assert (C1 : filter current cur = cur /\ filter (fun s => negb (current s)) cur = []).
    { clear - P1. induction cur as [|c l IH]; cbn; auto. assert (E : current c = true) by (apply contains_spec, P1; left; auto). rewrite E. cbn. destruct IH as [-> ->]; [intros x Hx; apply P1; right; auto|]. auto. }
    assert (C2 : filter current lag = [] /\ filter (fun s => negb (current s)) lag = lag).
    { clear - P2. induction lag as [|c l IH]; cbn; auto. assert (E : current c = false) by (destruct (current c) eqn:E; auto; apply contains_spec in E; exfalso; apply (P2 c); [left; auto|auto]).
      rewrite E. cbn. destruct IH as [-> ->]; [intros x Hx; apply P2; right; auto|]. auto. }
    split; [rewrite <- (Permutation_length (filter_Perm current _ _ Pn))|rewrite <- (Permutation_length (filter_Perm (fun s => negb (current s)) _ _ Pn))]; rewrite filter_app, app_length; destruct C1 as [E1 E2], C2 as [E3 E4]; rewrite ?E1, ?E2, ?E3, ?E4; cbn; lia.
  Qed.

  Definition short_drift : Prop := exists l, drift = Some l /\ List.length l < List.length cur.

  Lemma dyn_rest : (cur = [] -> r = Err ZeroDivisionError) /\
    (cur <> [] -> Digraph.acyclic (edges g) ->
      (0 < n_samples + burn_in -> short_drift -> r = Err IndexError) /\
      (0 < n_samples + burn_in -> ~ short_drift -> (scale < 0)%Qc -> r = Err ValueError) /\
      (n_samples + burn_in = 0 \/ ~ short_drift /\ (0 <= scale)%Qc ->
         ((exists p, List.length lag = p * List.length cur) -> exists df, r = Ok df) /\
         ((~ exists p, List.length lag = p * List.length cur) -> r = Err ValueError))).
  Proof.
    destruct period_run as (names & intra & inter & R & Li & Lo). destruct (numeric_all g NW) as (us & Eu).
    assert (Rn := R). destruct Rn as (En & Ei & Eo).
    unfold r, generate_dataframe_dynamic. apply smem_In in Hs. rewrite Hs. cbn [negb]. rewrite En, node_texts_back. cbn [bind]. rewrite Eu. cbn [bind]. rewrite <- Ei, <- Eo. rewrite Li, Lo.
    split; [intros ->; reflexivity|]. intros Nc Ac. destruct (Nat.eqb_spec (List.length cur) 0) as [Z|Z]; [destruct cur; [congruence|discriminate]|].
    change (fun i j : nat => wnum g (nth i intra "") (nth j intra "")) with (intra_w g intra).
    assert (Ha := intra_acyclic g names intra inter Wg R Ac). rewrite Li in Ha. apply (is_dag_acyclic Nat.eqb Nat.eqb_spec) in Ha. rewrite Ha. cbn [negb].
    assert (D : match drift with Some l => List.length l <? List.length cur | None => false end = true <-> short_drift).
    { unfold short_drift. destruct drift as [l|]; [|split; [discriminate|intros (l & [=] & _)]]. rewrite Nat.ltb_lt. split; [eauto|intros (l' & [= <-] & H); auto]. }
    split; [|split].
    - intros T S. apply Nat.ltb_lt in T. rewrite T. apply D in S. rewrite S. reflexivity.
    - intros T S N. apply Nat.ltb_lt in T. rewrite T. destruct (match drift with Some l => _ | None => _ end); [exfalso; apply S, D; auto|]. cbn [andb]. apply qlt_iff in N. rewrite N. reflexivity.
    - intros H. assert (C1 : (0 <? n_samples + burn_in) && match drift with Some l => List.length l <? List.length cur | None => false end = false).
      { destruct H as [->|[S _]]; [reflexivity|]. destruct (match drift with Some l => _ | None => _ end); [exfalso; apply S, D; auto|]. apply andb_false_r. }
      assert (C2 : (0 <? n_samples + burn_in) && qlt scale 0 = false).
      { destruct H as [->|[_ S]]; [reflexivity|]. apply qlt_false in S. rewrite S. apply andb_false_r. }
      rewrite C1, C2. split.
      + intros (p & Ep). assert (Q : List.length lag / List.length cur = p) by (rewrite Ep; apply Nat.div_mul; lia). rewrite Q, <- Ep, Nat.eqb_refl. cbn [negb]. eauto.
      + intros N. destruct (Nat.eqb_spec (List.length lag) (List.length lag / List.length cur * List.length cur)) as [E|E]; [exfalso; apply N; eauto|reflexivity].
  Qed.
End Dynamic.

(** ** sem_generator *)
Lemma sem_weight order topo dr g s default noise_std n ds intercept ts junk : PropsSem.valid_call order topo dr g s default ds ts ->
  (exists u v a, In (u, v, a) (edges_data g) /\ weight_of a <> ANone /\ forall q, weight_of a <> ANum q) ->
  SemModel.sem_generator order topo junk dr g s default noise_std n ds intercept = Err ValueError.
Proof.
  intros (Po & W & Ac & V & NC & Nds & Tp & Up) (u & v & a & He & Na & Nq).
  destruct (SemMain.setup order g s default ts Po Ac V NC) as (m & ix & E & GD). rewrite (SemMain.sem_unfold order topo dr g s default noise_std n ds intercept ts Nds m ix) by auto.
  unfold SemModel.weight_matrix.
  match goal with |- context [foldM ?f ?es ?w] => assert (F : foldM f es w = Err ValueError) end.
  { assert (Hin : In (u, v, weight_of a) (SemModel.edges_weight g)) by (unfold SemModel.edges_weight; apply in_map_iff; exists (u, v, a); auto).
    assert (T : forall u v wt, In (u, v, wt) (SemModel.edges_weight g) -> (exists tu, In (u, tu) ts) /\ exists tv, In (v, tv) ts).
    { intros u' v' wt I. unfold SemModel.edges_weight in I. apply in_map_iff in I as ([[u0 v0] a0] & [= <- <- <-] & I).
      assert (Ie : In (u0, v0) (edges g)) by (apply in_map_iff; exists (u0, v0, a0); auto).
      destruct (edges_nodes g u0 v0 W Ie) as [H1 H2]. split; apply (SemMain.typed g s default ts V); auto. }
    revert Hin T. generalize (fun _ _ : nat => 0%Qc). induction (SemModel.edges_weight g) as [|[[u1 v1] w1] es IH]; intros w Hin T; [destruct Hin|]. cbn [foldM].
    destruct (T u1 v1 w1 (or_introl eq_refl)) as ((tu & Tu) & tv & Tv).
    assert (B : SemModel.edge_block dr (SemMain.setting ds "weight" (SemModel.DName "uniform")) m w (u1, v1, w1) = Err ValueError \/
       exists w', SemModel.edge_block dr (SemMain.setting ds "weight" (SemModel.DName "uniform")) m w (u1, v1, w1) = Ok w').
    { unfold SemModel.edge_block. destruct (SemThms.gd_ix ts m ix GD u1 tu Tu) as (_ & -> & _ & _). destruct (SemThms.gd_ix ts m ix GD v1 tv Tv) as (_ & -> & _ & _). cbn [bind].
      destruct w1; auto; [destruct (_ =? 1); eauto; destruct (1 <? _); eauto|destruct (SemModel.weight_name _); eauto]. }
    destruct Hin as [[= -> -> ->]|Hin].
    - destruct B as [->|(w' & B)]; [reflexivity|]. exfalso. unfold SemModel.edge_block in B.
      destruct (SemThms.gd_ix ts m ix GD u tu Tu) as (_ & Q & _ & _). rewrite Q in B. destruct (SemThms.gd_ix ts m ix GD v tv Tv) as (_ & Q' & _ & _). rewrite Q' in B. cbn [bind] in B.
      destruct (weight_of a) as [q| | |]; try discriminate; [apply (Nq q); reflexivity|apply Na; reflexivity].
    - destruct B as [->|(w' & ->)]; [reflexivity|]. cbn [bind]. apply IH; [exact Hin|]. intros u' v' wt I. apply (T u' v' wt). right. exact I. }
  rewrite F. reflexivity.
Qed.
