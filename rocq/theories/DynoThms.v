(** * DynoThms: DYNOTEARS structures respect the bans and carry the estimated effects under the right names. *)
From Coq Require Import List Bool Arith ZArith Lia String Ascii QArith Qcanon Permutation.
From Verif Require Import Base Names QcX Digraph SmModel SmProofs SmBuild NotearsModel NotearsProofs NotearsThms TransModel MapperModel MapperProofs MapperThms DynoModel DynoProofs.
Import ListNotations.
Local Open Scope string_scope.
Local Open Scope list_scope.
Local Open Scope nat_scope.

(** ** From arrays *)
Lemma cut_lt_app t a b : cut_lt t (a ++ b) = cut_lt t a ++ cut_lt t b.
Proof. apply map_app. Qed.

Lemma numpy_dynamic_states fuel opt eh X Xlags par t g b : learn_numpy_dynamic fuel opt eh X Xlags par t = Ok (g, b) ->
  let d := m_cols X in
  let p := m_cols Xlags / d in
  0 < d /\ nodes g = map LStr (lag_cols d p) /\
  exists v, dgraph_of g d p dname "unknown" (effect d v) (keep_ge (w_threshold par)) /\
    ((max_iter par = 0 /\ v = repeat 0%Qc (2 * (p + 1) * (d * d))) \/
     (0 < max_iter par /\ exists r a x k, v = opt (dbnds t d p) r a x k /\ b = flt (Fin (h_tol par)) (dyn_h eh d p v))) /\
    (respects_bounds opt -> Forall2 in_bound (dbnds t d p) v) /\
    (exists s, dual_ascent fuel (max_iter par) (2 * (p + 1) * (d * d)) (dyn_h eh d p) opt (dbnds t d p) (h_tol par) = Ok (s, b) /\ v = w_est s) /\
    (exists wa, reshape_wa v d p = Ok wa).
Proof.
  intros H d p. unfold learn_numpy_dynamic in H. fold d in H. destruct (Nat.eqb_spec d 0) as [|Hd]; [discriminate|]. fold p in H.
  apply bind_ok in H. destruct H as ([[w a] b'] & El & H). cbn [fst snd] in H. apply bind_ok in H. destruct H as (g' & Em & H). injection H as -> ->.
  unfold learn_dynamic in El. destruct (m_size X =? 0); [discriminate|]. destruct (m_size Xlags =? 0); [discriminate|].
  destruct (negb _); [discriminate|]. destruct (negb _); [discriminate|]. fold d in El. cbv zeta in El. fold p in El.
  apply bind_ok in El. destruct El as ([s b2] & Ea & El). cbn [fst snd] in El. apply bind_ok in El. destruct El as (wa & Er & El). injection El as -> ->.
  pose proof (ascent_result _ _ _ _ _ _ _ _ _ Ea) as R.
  destruct (reshape_ok _ _ _ _ _ Er) as (Lv & Lw & La & Ew & Eae).
  assert (Hd' : 0 < d) by lia. split; auto.
  destruct (matrices_graph d p (cut_lt (w_threshold par) w) (cut_lt (w_threshold par) a)) as (g2 & E2 & W & N & A); auto; [rewrite cut_lt_length; auto|rewrite cut_lt_length; auto|].
  rewrite Em in E2. injection E2 as <-. split; auto. exists (w_est s).
  assert (Full : forall k i j, k <= p -> i < d -> j < d -> entry d (w ++ a) (k * d + i) j = effect d (w_est s) k i j).
  { intros k i j Hk Hi Hj. destruct k as [|k].
    - rewrite <- (Ew i j) by auto. unfold entry. cbn [Nat.mul plus]. apply app_nth1. rewrite Lw. apply index_lt; auto.
    - rewrite <- (Eae k i j) by (auto; lia). unfold entry. rewrite app_nth2 by (rewrite Lw; nia). f_equal. rewrite Lw. nia. }
  assert (Cut : forall k i j, k <= p -> i < d -> j < d ->
     (entry d (cut_lt (w_threshold par) w ++ cut_lt (w_threshold par) a) (k * d + i) j <> 0%Qc <-> keep_ge (w_threshold par) (effect d (w_est s) k i j)) /\
     (keep_ge (w_threshold par) (effect d (w_est s) k i j) -> entry d (cut_lt (w_threshold par) w ++ cut_lt (w_threshold par) a) (k * d + i) j = effect d (w_est s) k i j)).
  { intros k i j Hk Hi Hj. rewrite <- cut_lt_app, cut_lt_entry, Full by auto. unfold keep_ge. destruct (qlt _ _) eqn:Q.
    - apply qlt_iff in Q. split; [|intros [_ X1]; exfalso; apply (Qclt_not_le _ _ Q); auto].
      split; [congruence|]. intros [_ X1]. exfalso. apply (Qclt_not_le _ _ Q); auto.
    - apply qlt_false in Q. tauto. }
  split; [|split; [|split; [|split]]].
  - split; [apply edges_NoDup; auto|]. split.
    + intros u v. rewrite edges_In by auto. split.
      * intros (at' & Ha). apply A in Ha. destruct Ha as (k & i & j & x & Hk & Hi & Hj & -> & -> & -> & Q & _). exists k, i, j. repeat split; auto. apply Cut; auto.
        apply Cut; auto.
      * intros (k & i & j & Hk & Hi & Hj & -> & -> & K). eexists. apply A. exists k, i, j. eexists. repeat split; auto. apply Cut; auto.
    + intros k i j Hk Hi Hj K. apply A. exists k, i, j, (effect d (w_est s) k i j). destruct (Cut k i j Hk Hi Hj) as [C1 C2]. repeat split; auto.
      * symmetry. auto.
      * apply K.
  - destruct R as [(R1 & _ & R2 & _)|(R1 & _ & (r & al & x & R2) & _ & Eb)]; [left; auto|right]. split; auto. exists r, al, x, (calls s - 1). split; auto.
  - intros RB. destruct R as [(R1 & _ & R2 & _)|(R1 & _ & (r & al & x & R2) & _)]; rewrite R2.
    + replace (2 * (p + 1) * (d * d)) with (List.length (dbnds t d p)) by (rewrite dbnds_length; lia).
      pose proof (dbnds_zero t d p) as F. clear - F. induction F; cbn; constructor; auto.
    + apply RB. eapply Forall_impl; [|apply dbnds_zero]. intros bb Hb. exists 0%Qc. exact Hb.
  - exists s. auto.
  - eexists. exact Er.
Qed.

Lemma effect_fixed d p v t k i j : Forall2 in_bound (dbnds t d p) v -> k <= p -> i < d -> j < d ->
  (k = 0 /\ i = j) \/ dbanned t k (Z.of_nat i) (Z.of_nat j) -> effect d v k i j = 0%Qc.
Proof.
  intros F Hk Hi Hj B. apply dbnd_banned in B. destruct (dbnds_nth t d p k i j fixed0 Hk Hi Hj) as [N1 N2]. pose proof (index_lt d i j Hi Hj) as Hx.
  pose proof (Forall2_nth _ _ _ (2 * k * (d * d) + (i * d + j)) fixed0 0%Qc F) as B1. rewrite N1, B, dbnds_length in B1.
  pose proof (Forall2_nth _ _ _ ((2 * k + 1) * (d * d) + (i * d + j)) fixed0 0%Qc F) as B2. rewrite N2, B, dbnds_length in B2.
  assert (Z1 := proj1 (in_fixed0 _) (B1 ltac:(nia))). assert (Z2 := proj1 (in_fixed0 _) (B2 ltac:(nia))). unfold effect. rewrite Z1, Z2. ring.
Qed.

Theorem numpy_dynamic_no_ban fuel opt eh X Xlags par t g : respects_bounds opt -> from_numpy_dynamic fuel opt eh X Xlags par t = Ok g ->
  let d := m_cols X in
  forall u v, In (u, v) (edges g) ->
    exists k i j, k <= m_cols Xlags / d /\ i < d /\ j < d /\ u = LStr (lag_name (dec i) k) /\ v = LStr (lag_name (dec j) 0) /\
      ~ (k = 0 /\ i = j) /\ ~ dbanned t k (Z.of_nat i) (Z.of_nat j).
Proof.
  intros RB H d u v I. unfold from_numpy_dynamic in H. apply bind_ok in H. destruct H as ([g' b] & H & [= <-]).
  destruct (numpy_dynamic_states _ _ _ _ _ _ _ _ _ H) as (_ & _ & w & (_ & G & _) & _ & F & _). specialize (F RB).
  apply G in I. destruct I as (k & i & j & Hk & Hi & Hj & -> & -> & [Nz _]). exists k, i, j.
  split; [exact Hk|]. split; [exact Hi|]. split; [exact Hj|]. split; [reflexivity|]. split; [reflexivity|].
  split; intros B; apply Nz; eapply effect_fixed; eauto.
Qed.

Theorem numpy_dynamic_result fuel opt eh X Xlags par t g : from_numpy_dynamic fuel opt eh X Xlags par t = Ok g ->
  let d := m_cols X in
  let p := m_cols Xlags / d in
  nodes g = map LStr (lag_cols d p) /\ NoDup (nodes g) /\
  exists v, learned_vector opt (2 * (p + 1) * (d * d)) par v /\
    dgraph_of g d p (fun i k => LStr (lag_name (dec i) k)) "unknown" (effect d v) (fun x => x <> 0%Qc /\ (w_threshold par <= Qcabs x)%Qc).
Proof.
  intros H d p. unfold from_numpy_dynamic in H. apply bind_ok in H. destruct H as ([g' b] & H & [= <-]).
  destruct (numpy_dynamic_states _ _ _ _ _ _ _ _ _ H) as (_ & N & w & G & S & _). split; auto.
  split; [rewrite N; apply FinFun.Injective_map_NoDup; [intros x y [= E]; auto|apply lag_cols_NoDup]|]. exists w. split; auto.
  destruct S as [[S1 S2]|(S1 & r & a & x & k & S2 & _)]; [left; auto|right; split; auto]. exists (dbnds t d p), r, a, x, k. auto.
Qed.

(** ** Names *)
Lemma split_digits s : all_chars is_digit s = true -> split_lag 0 s = [s].
Proof.
  induction s as [|c s IH]; intros H; auto. cbn [all_chars] in H. apply andb_true_iff in H. destruct H as [Hc Hs].
  assert (P : String.prefix "_lag" (String c s) = false).
  { unfold String.prefix. destruct (Ascii.ascii_dec "_" c) as [<-|]; auto. vm_compute in Hc. discriminate. }
  cbn [split_lag]. rewrite P, IH by auto. auto.
Qed.

Lemma split_lag_name a k : all_chars is_digit a = true -> split_lag 0 (lag_name a k) = [a; dec k].
Proof.
  unfold lag_name. intros H. induction a as [|c a IH].
  - change ("" ++ "_lag" ++ dec k)%string with ("_lag" ++ dec k)%string.
    assert (P : String.prefix "" (dec k) = true) by (destruct (dec k); reflexivity).
    transitivity ("" :: split_lag 0 (dec k)); [|f_equal; apply split_digits; apply dec_digits].
    cbn. rewrite P. reflexivity.
  - cbn [all_chars] in H. apply andb_true_iff in H. destruct H as [Hc Ha].
    assert (P : forall s, String.prefix "_lag" (String c s) = false).
    { intros s. unfold String.prefix. destruct (Ascii.ascii_dec "_" c) as [<-|]; auto. vm_compute in Hc. discriminate. }
    change (String c a ++ "_lag" ++ dec k)%string with (String c (a ++ "_lag" ++ dec k)).
    generalize dependent (a ++ "_lag" ++ dec k)%string. intros r IH. cbn [split_lag]. rewrite P, IH by auto. auto.
Qed.

Lemma idx_col_nth cols i c : NoDup cols -> nth_error cols i = Some c -> idx_col (col_idx cols) (Z.of_nat i) = Ok c.
Proof.
  intros ND H. unfold idx_col. rewrite col_idx_combine by auto.
  destruct (find _ _) as [[c' k]|] eqn:F.
  - apply find_some in F. destruct F as [F E]. cbn [snd] in E. apply Z.eqb_eq in E. apply Nat2Z.inj in E. subst k.
    apply combine_In_nth in F. destruct F as (i' & -> & F). cbn in H. cbn. congruence.
  - exfalso. apply find_none with (x := (c, i)) in F; [|apply (combine_nth_In cols 0 i c H)]. cbn [snd] in F. rewrite Z.eqb_refl in F. discriminate.
Qed.

Lemma format_dname cols i k s : NoDup cols -> nth_error cols i = Some (LStr s) -> format_name (col_idx cols) (dname i k) = Ok (LStr (lag_name s k)).
Proof.
  intros ND H. unfold format_name, dname, text. rewrite split_lag_name by apply dec_digits. rewrite py_int_dec. cbn [bind].
  rewrite (idx_col_nth cols i (LStr s)) by auto. reflexivity.
Qed.

(** ** From data frames *)
Definition cname (names : list string) (i : nat) : string := nth i names "".
Definition pname (names : list string) (i k : nat) : label := LStr (lag_name (cname names i) k).

Lemma cname_nth names i : i < List.length names -> nth_error (map LStr names) i = Some (LStr (cname names i)).
Proof. intros H. unfold cname. rewrite nth_error_map, (nth_error_nth' names "") by auto. auto. Qed.

Lemma pname_inj names i k j l : NoDup names -> i < List.length names -> j < List.length names -> pname names i k = pname names j l -> i = j /\ k = l.
Proof.
  intros ND Hi Hj [= H]. apply lag_name_inj in H. destruct H as [H ->]. split; auto. apply (proj1 (NoDup_nth names "") ND); auto.
Qed.

Lemma LStr_NoDup names : NoDup names -> NoDup (map LStr names).
Proof. intros H. apply FinFun.Injective_map_NoDup; auto. intros x y [= E]; auto. Qed.

Lemma NoDup_map_inj_in {A B} (f : A -> B) l : NoDup l -> (forall a b, In a l -> In b l -> f a = f b -> a = b) -> NoDup (map f l).
Proof.
  induction 1 as [|x l Hx N IH]; intros H; cbn; constructor.
  - intros I. apply in_map_iff in I. destruct I as (b & E & I). apply Hx. replace x with b; auto. apply H; auto; [right; auto|left; auto].
  - apply IH. intros; apply H; auto; right; auto.
Qed.

(** Renaming a dynamic graph *)
Lemma rename_dgraph g0 d p (name name' : nat -> nat -> label) o w keep ns (f : label -> res label) g :
  dgraph_of g0 d p name o w keep ->
  (forall i k j l, i < d -> j < d -> name i k = name j l -> i = j /\ k = l) ->
  (forall i k j l, i < d -> j < d -> name' i k = name' j l -> i = j /\ k = l) ->
  (forall i k, i < d -> k <= p -> f (name i k) = Ok (name' i k)) ->
  NoDup ns -> (forall i k, i < d -> k <= p -> In (name' i k) ns) ->
  (do es <- mapM (fun e => do u <- f (fst (fst e)); do v <- f (snd (fst e)); Ok (W3 u v (weight_of (snd e)))) (edges_data g0);
   sm_result (add_weighted_edges_from (fold_left add_node ns []) es "weight" "learned" [])) = Ok g ->
  nodes g = ns /\ dgraph_of g d p name' "learned" w keep.
Proof.
  intros (ND0 & G & A) Inj Inj' Hf ND Hns H. apply bind_ok in H. destruct H as (es & Ee & H).
  set (ff := fun u => match f u with Ok c => c | Err _ => u end).
  assert (Cf : forall i k, i < d -> k <= p -> ff (name i k) = name' i k) by (intros i k Hi Hk; unfold ff; rewrite Hf; auto).
  assert (Ed : forall e, In e (edges_data g0) -> exists k i j, k <= p /\ i < d /\ j < d /\ fst e = (name i k, name j 0) /\ keep (w k i j) /\
             edge_attrs g0 (name i k) (name j 0) = Some [("origin", AStr o); ("weight", ANum (w k i j))]).
  { intros e He. assert (X1 : In (fst e) (edges g0)) by (apply in_map; auto). rewrite (surjective_pairing (fst e)) in X1. apply G in X1.
    destruct X1 as (k & i & j & Hk & Hi & Hj & E1 & E2 & K). exists k, i, j. repeat split; auto. rewrite (surjective_pairing (fst e)). congruence. }
  set (ws := map (fun e => (ff (fst (fst e)), ff (snd (fst e)), weight_of (snd e))) (edges_data g0)).
  assert (Ews : es = map (fun e => W3 (fst (fst e)) (snd (fst e)) (snd e)) ws).
  { unfold ws. rewrite map_map. cbn [fst snd].
    assert (M : mapM (fun e : label * label * list (string * aval) => do u <- f (fst (fst e)); do v <- f (snd (fst e)); Ok (W3 u v (weight_of (snd e)))) (edges_data g0)
       = Ok (map (fun x => W3 (ff (fst (fst x))) (ff (snd (fst x))) (weight_of (snd x))) (edges_data g0))).
    { apply mapM_ok_intro. intros e He. destruct (Ed e He) as (k & i & j & Hk & Hi & Hj & E & _). rewrite E. cbn [fst snd].
      rewrite !Cf by (auto; lia). rewrite !Hf by (auto; lia). auto. }
    rewrite Ee in M. congruence. }
  destruct (weighted_build ns ws) as (g' & E' & W' & N' & A').
  - auto.
  - unfold ws. rewrite map_map. cbn [fst].
    rewrite <- (map_map fst (fun uv : label * label => (ff (fst uv), ff (snd uv)))). fold (edges g0).
    apply NoDup_map_inj_in; auto. intros [a1 a2] [b1 b2] Ha Hb. apply G in Ha. apply G in Hb.
    destruct Ha as (k & i & j & Hk & Hi & Hj & -> & -> & _). destruct Hb as (k' & i' & j' & Hk' & Hi' & Hj' & -> & -> & _).
    cbn [fst snd]. rewrite !Cf by (auto; lia). intros E. injection E as E1 E2. apply Inj' in E1; auto. apply Inj' in E2; auto. destruct E1 as [-> ->], E2 as [-> _]. auto.
  - intros u v x I. unfold ws in I. apply in_map_iff in I. destruct I as (e & E0 & I). injection E0 as <- <- _. destruct (Ed e I) as (k & i & j & Hk & Hi & Hj & E & _).
    rewrite E. cbn [fst snd]. rewrite !Cf by (auto; lia). split; apply Hns; auto; lia.
  - rewrite Ews in H. unfold sm_result in H. rewrite E' in H. cbn in H. injection H as <-. split; auto.
    assert (Wt : forall u v x, In (u, v, x) ws <-> exists k i j, k <= p /\ i < d /\ j < d /\ u = name' i k /\ v = name' j 0 /\ keep (w k i j) /\ x = ANum (w k i j)).
    { intros u v x. unfold ws. rewrite in_map_iff. split.
      - intros (e & E0 & I). injection E0 as <- <- <-. destruct (Ed e I) as (k & i & j & Hk & Hi & Hj & E & K & Ea). exists k, i, j. rewrite E. cbn [fst snd]. rewrite !Cf by (auto; lia).
        repeat split; auto.
        assert (Wa : snd e = [("origin", AStr o); ("weight", ANum (w k i j))]).
        { apply (edges_data_attrs g0 (name i k) (name j 0)); auto. rewrite <- E, <- surjective_pairing; auto. }
        rewrite Wa. reflexivity.
      - intros (k & i & j & Hk & Hi & Hj & -> & -> & K & ->).
        assert (I : In (name i k, name j 0) (edges g0)) by (apply G; exists k, i, j; auto 10).
        unfold edges in I. apply in_map_iff in I. destruct I as (e & E & I). exists e. split; auto. rewrite E. cbn [fst snd]. rewrite !Cf by (auto; lia).
        assert (Wa : snd e = [("origin", AStr o); ("weight", ANum (w k i j))]).
        { apply (edges_data_attrs g0 (name i k) (name j 0)); auto. rewrite <- E, <- surjective_pairing; auto. }
        rewrite Wa. reflexivity. }
    split; [apply edges_NoDup; auto|]. split.
    + intros u v. rewrite edges_In by auto. split.
      * intros (a & Ha). apply A' in Ha. destruct Ha as (x & I & _). apply Wt in I. destruct I as (k & i & j & Hk & Hi & Hj & -> & -> & K & _). exists k, i, j. auto 10.
      * intros (k & i & j & Hk & Hi & Hj & -> & -> & K). eexists. apply A'. exists (ANum (w k i j)). split; [apply Wt; exists k, i, j; auto 10|reflexivity].
    + intros k i j Hk Hi Hj K. apply A'. exists (ANum (w k i j)). split; auto. apply Wt. exists k, i, j. auto 10.
Qed.

(** The names of the variables of the time series *)
Definition variables (l : list series) : list string := match l with [] => [] | t :: _ => col_names t end.

Lemma dtabu_index_ban names t tz k i j : NoDup names -> dtabu_index (col_idx (map LStr names)) t = Ok tz -> i < List.length names -> j < List.length names ->
  dbanned t k (cname names i) (cname names j) -> dbanned tz k (Z.of_nat i) (Z.of_nat j).
Proof.
  intros ND E Hi Hj B. unfold dtabu_index in E. apply bind_ok in E. destruct E as (e & E1 & E). apply bind_ok in E. destruct E as (q & E2 & E).
  apply bind_ok in E. destruct E as (c & E3' & E). injection E as <-.
  assert (Ni := idx_of_nth _ i _ (LStr_NoDup _ ND) (cname_nth names i Hi)). assert (Nj := idx_of_nth _ j _ (LStr_NoDup _ ND) (cname_nth names j Hj)).
  assert (F : forall A B (f : A -> res B) l l' x y, mapM f l = Ok l' -> In x l -> f x = Ok y -> In y l').
  { intros A B0 f l l' x y M Hx Hf. apply mapM_ok in M. induction M as [|a b l l' Hab M IH]; [destruct Hx|]. destruct Hx as [->|Hx]; [left; congruence|right; auto]. }
  destruct B as [(l & El & I)|[(l & El & I)|(l & El & I)]]; rewrite El in *; cbn [opt_mapM] in *.
  - apply bind_ok in E1. destruct E1 as (l' & M & [= <-]). left. exists l'. split; auto. eapply F; eauto. cbn [fst snd]. rewrite Ni. cbn. rewrite Nj. auto.
  - apply bind_ok in E2. destruct E2 as (l' & M & [= <-]). right; left. exists l'. split; auto. eapply F; eauto.
  - apply bind_ok in E3'. destruct E3' as (l' & M & [= <-]). right; right. exists l'. split; auto. eapply F; eauto.
Qed.

Lemma pandas_nodes names p : NoDup names ->
  flat_map (fun ck : label * nat => map (fun k => LStr (lag_name (text (fst ck)) k)) (seq 0 (p + 1))) (col_idx (map LStr names)) =
  flat_map (fun c => map (fun k => LStr (lag_name c k)) (seq 0 (p + 1))) names.
Proof.
  intros ND. rewrite col_idx_combine by (apply LStr_NoDup; auto). rewrite map_length. generalize (seq 0 (p + 1)) as ks. intros ks. clear ND. generalize 0.
  induction names as [|c names IH]; intros s; [reflexivity|]. cbn [map List.length seq combine flat_map fst text]. rewrite IH. reflexivity.
Qed.

Lemma pandas_nodes_NoDup names p : NoDup names -> NoDup (flat_map (fun c => map (fun k => LStr (lag_name c k)) (seq 0 (p + 1))) names).
Proof.
  induction 1 as [|c names Hc ND IH]; cbn; [constructor|]. apply NoDup_app_intro; auto.
  - apply FinFun.Injective_map_NoDup; [|apply seq_NoDup]. intros a b [= E]. apply lag_name_inj in E. tauto.
  - intros x H1 H2. apply in_map_iff in H1. destruct H1 as (a & <- & _). apply in_flat_map in H2. destruct H2 as (c' & Hc' & H2).
    apply in_map_iff in H2. destruct H2 as (b & [= E] & _). apply lag_name_inj in E. destruct E as [-> _]. tauto.
Qed.

Lemma pandas_dynamic_states fuel opt eh l p par t g b : NoDup (variables l) ->
  learn_pandas_dynamic fuel opt eh l p par t = Ok (g, b) ->
  let names := variables l in
  let d := List.length names in
  exists X Xlags tz g0, ddt_transform (mkDdt p (Some names) false) l = Ok (Arrays X Xlags) /\
    dtabu_index (col_idx (map LStr names)) t = Ok tz /\
    learn_numpy_dynamic fuel opt eh (mkMat d (map (map Fin) X)) (mkMat (p * d) (map (map Fin) Xlags)) par tz = Ok (g0, b) /\
    nodes g = flat_map (fun c => map (fun k => LStr (lag_name c k)) (seq 0 (p + 1))) names /\
    forall o w keep, dgraph_of g0 d p dname o w keep -> dgraph_of g d p (pname names) "learned" w keep.
Proof.
  intros ND H names d. unfold learn_pandas_dynamic in H. apply bind_ok in H. destruct H as (tr & Ef & H). apply bind_ok in H. destruct H as (o & Eo & H).
  destruct l as [|first rest]; [destruct o; discriminate|]. cbn [variables] in *. subst names.
  unfold ddt_fit, ddt_init in Ef. apply bind_ok in Ef. destruct Ef as (u & _ & Ef). cbn in Ef. injection Ef as <-.
  destruct o as [?|X Xlags]; [discriminate|]. exists X, Xlags. apply bind_ok in H. destruct H as (tz & Et & H). exists tz.
  apply bind_ok in H. destruct H as ([g0 b0] & El & H). rewrite map_length in El. fold d in El. cbn [fst snd] in H.
  rewrite pandas_nodes in H by auto.
  assert (H' : (do es <- mapM (fun e => do u <- format_name (col_idx (map LStr (col_names first))) (fst (fst e)); do v <- format_name (col_idx (map LStr (col_names first))) (snd (fst e)); Ok (W3 u v (weight_of (snd e)))) (edges_data g0);
     sm_result (add_weighted_edges_from (fold_left add_node (flat_map (fun c => map (fun k => LStr (lag_name c k)) (seq 0 (p + 1))) (col_names first)) []) es "weight" "learned" [])) = Ok g /\ b0 = b).
  { apply bind_ok in H. destruct H as (es & Ee & H). rewrite Ee. cbn [bind]. apply bind_ok in H. destruct H as (g2 & Eg & [= -> ->]). split; auto. }
  destruct H' as [H' ->]. exists g0. split; auto. split; auto. split; auto.
  assert (R : forall o w keep, dgraph_of g0 d p dname o w keep -> nodes g = flat_map (fun c => map (fun k => LStr (lag_name c k)) (seq 0 (p + 1))) (col_names first) /\ dgraph_of g d p (pname (col_names first)) "learned" w keep).
  { intros o w keep G0. eapply (rename_dgraph g0 d p dname (pname (col_names first)) o w keep); eauto.
    - intros i k j m _ _ E. apply dname_inj. auto.
    - intros i k j m Hi Hj E. apply pname_inj in E; auto.
    - intros i k Hi Hk. apply format_dname; [apply LStr_NoDup; auto|]. apply cname_nth. auto.
    - apply pandas_nodes_NoDup; auto.
    - intros i k Hi Hk. apply in_flat_map. exists (cname (col_names first) i). split; [apply nth_In; auto|]. apply in_map_iff. exists k. split; auto. apply in_seq. lia. }
  destruct (numpy_dynamic_states _ _ _ _ _ _ _ _ _ El) as (Hd & _ & v & G & _). cbn [m_cols] in *. rewrite Nat.div_mul in G by lia.
  split; [apply (R _ _ _ G)|]. intros o w keep G0. apply (R o w keep G0).
Qed.

Theorem pandas_dynamic_no_ban fuel opt eh l p par t g : respects_bounds opt -> NoDup (variables l) ->
  from_pandas_dynamic fuel opt eh l p par t = Ok g ->
  forall u v, In (u, v) (edges g) ->
    exists k a b, k <= p /\ In a (variables l) /\ In b (variables l) /\ u = LStr (lag_name a k) /\ v = LStr (lag_name b 0) /\
      ~ (k = 0 /\ a = b) /\ ~ dbanned t k a b.
Proof.
  intros RB ND H u v I. unfold from_pandas_dynamic in H. apply bind_ok in H. destruct H as ([g' b] & H & [= <-]).
  destruct (pandas_dynamic_states _ _ _ _ _ _ _ _ _ ND H) as (X & Xl & tz & g0 & _ & Et & El & _ & T).
  destruct (numpy_dynamic_states _ _ _ _ _ _ _ _ _ El) as (Hd & _ & w & G & _ & F & _). specialize (F RB). cbn [m_cols] in *. rewrite Nat.div_mul in * by lia.
  destruct (T _ _ _ G) as (_ & G1 & _). apply G1 in I. destruct I as (k & i & j & Hk & Hi & Hj & -> & -> & [Nz _]).
  exists k, (cname (variables l) i), (cname (variables l) j). split; [exact Hk|]. split; [apply nth_In; auto|]. split; [apply nth_In; auto|].
  split; [reflexivity|]. split; [reflexivity|]. split.
  - intros [-> E]. apply Nz. eapply effect_fixed; eauto; try lia. left. split; auto. apply (proj1 (NoDup_nth (variables l) "") ND); auto.
  - intros B. apply Nz. eapply effect_fixed; eauto. right. eapply dtabu_index_ban; eauto.
Qed.

Theorem pandas_dynamic_result fuel opt eh l p par t g : NoDup (variables l) -> from_pandas_dynamic fuel opt eh l p par t = Ok g ->
  let names := variables l in
  let d := List.length names in
  nodes g = flat_map (fun c => map (fun k => LStr (lag_name c k)) (seq 0 (p + 1))) names /\ NoDup (nodes g) /\
  exists v, learned_vector opt (2 * (p + 1) * (d * d)) par v /\
    dgraph_of g d p (fun i k => LStr (lag_name (nth i names "") k)) "learned" (effect d v) (fun x => x <> 0%Qc /\ (w_threshold par <= Qcabs x)%Qc).
Proof.
  intros ND H names d. unfold from_pandas_dynamic in H. apply bind_ok in H. destruct H as ([g' b] & H & [= <-]).
  destruct (pandas_dynamic_states _ _ _ _ _ _ _ _ _ ND H) as (X & Xl & tz & g0 & _ & Et & El & N & T).
  destruct (numpy_dynamic_states _ _ _ _ _ _ _ _ _ El) as (Hd & _ & w & G & S & _). cbn [m_cols] in *. rewrite Nat.div_mul in * by lia.
  split; auto. split; [cbn [fst]; rewrite N; apply pandas_nodes_NoDup; auto|]. exists w. split; [|exact (T _ _ _ G)].
  destruct S as [[S1 S2]|(S1 & r & a & x & k & S2 & _)]; [left; auto|right; split; auto]. eexists _, r, a, x, k. exact S2.
Qed.

(** ** Termination *)
Theorem numpy_dynamic_terminates fuel opt eh X Xlags par t : (forall w, eh (m_cols X) w <> PInf) -> 21 <= fuel ->
  from_numpy_dynamic fuel opt eh X Xlags par t <> Err OutOfFuel.
Proof.
  intros Fi Hf. unfold from_numpy_dynamic, learn_numpy_dynamic. destruct (Nat.eqb_spec (m_cols X) 0) as [|Hd]; [cbn; congruence|].
  set (d := m_cols X) in *. set (p := m_cols Xlags / d). unfold learn_dynamic.
  destruct (m_size X =? 0); [cbn; congruence|]. destruct (m_size Xlags =? 0); [cbn; congruence|].
  destruct (negb _); [cbn; congruence|]. destruct (negb _); [cbn; congruence|]. cbv zeta. fold d. fold p.
  destruct (ascent_total (dyn_h eh d p) opt (dbnds t d p) fuel (max_iter par) (2 * (p + 1) * (d * d)) (h_tol par)) as (s & b & E & _); auto.
  { intros r a x k. unfold dyn_h. destruct (reshape_wa _ _ _); [apply Fi|congruence]. }
  rewrite E. cbn [bind fst snd]. destruct (reshape_wa (w_est s) d p) as [[w a]|e] eqn:Er; cbn [bind fst snd].
  - destruct (reshape_ok _ _ _ _ _ Er) as (_ & Lw & La & _).
    destruct (matrices_graph d p (cut_lt (w_threshold par) w) (cut_lt (w_threshold par) a)) as (g & E2 & _); [lia|rewrite cut_lt_length; auto|rewrite cut_lt_length; auto|].
    rewrite E2. cbn. congruence.
  - unfold reshape_wa in Er. destruct (_ =? _) in Er; [discriminate|]. injection Er as <-. congruence.
Qed.
