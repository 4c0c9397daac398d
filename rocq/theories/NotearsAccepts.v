(** * NotearsAccepts: which data and bans NOTEARS and DYNOTEARS accept. *)
From Coq Require Import List Bool Arith ZArith Lia String QArith Qcanon Sorted.
From Verif Require Import Base Names QcX Digraph SmModel NotearsModel NotearsProofs NotearsThms NotearsThr TransModel TransProofs TransThms DynoModel DynoProofs DynoThms.
Import ListNotations.
Local Open Scope list_scope.
Local Open Scope nat_scope.

(** ** Specification *)

(** There are rows and columns, and all values are finite numbers. *)
Definition has_data (X : mat) : Prop := m_rows X <> [] /\ m_cols X <> 0.
Definition finite_data (X : mat) : Prop := forall r x, In r (m_rows X) -> In x r -> exists q, x = Fin q.

(** All names that are banned are among [cols]. *)
Definition known {A} (cols : list A) (t : tabu A) : Prop :=
  (forall l u v, t_edges t = Some l -> In (u, v) l -> In u cols /\ In v cols) /\
  (forall l u, t_parents t = Some l -> In u l -> In u cols) /\
  (forall l u, t_children t = Some l -> In u l -> In u cols).
Definition known_lagged {A} (cols : list A) (t : dtabu A) : Prop :=
  (forall l k u v, dt_edges t = Some l -> In (k, u, v) l -> In u cols /\ In v cols) /\
  (forall l u, dt_parents t = Some l -> In u l -> In u cols) /\
  (forall l u, dt_children t = Some l -> In u l -> In u cols).

(** ** Arrays *)
Lemma all_finite_iff X : all_finite X = true <-> finite_data X.
Proof.
  unfold all_finite, finite_data. rewrite forallb_forall. split.
  - intros H r x Hr Hx. specialize (H r Hr). rewrite forallb_forall in H. specialize (H x Hx). destruct x; try discriminate. eauto.
  - intros H r Hr. apply forallb_forall. intros x Hx. destruct (H r x Hr Hx) as (q & ->). auto.
Qed.
Lemma size_iff X : m_size X = 0 <-> ~ has_data X.
Proof.
  unfold m_size, has_data. rewrite Nat.eq_mul_0. split.
  - intros [E|E] [A B]; [apply length_zero_iff_nil in E|]; congruence.
  - intros N. destruct (m_rows X); [left; auto|]. destruct (m_cols X); [right; auto|]. exfalso. apply N. split; congruence.
Qed.

Lemma F2_length {A B} (R : A -> B -> Prop) l l' : Forall2 R l l' -> List.length l = List.length l'.
Proof. induction 1; cbn; congruence. Qed.

Lemma ascent_length hf opt bnds fuel n len tol s b : List.length bnds = len -> Forall feasible bnds -> respects_bounds opt ->
  dual_ascent fuel n len hf opt bnds tol = Ok (s, b) -> List.length (w_est s) = len.
Proof.
  intros L F RB E. destruct (ascent_result _ _ _ _ _ _ _ _ _ E) as [(_ & _ & -> & _)|(_ & _ & (r & a & x & ->) & _)].
  - apply repeat_length.
  - rewrite <- L. symmetry. eapply F2_length. apply RB. auto.
Qed.

Lemma subv_length a b : List.length (subv a b) = Nat.min (List.length a) (List.length b).
Proof. unfold subv. rewrite map_length, combine_length. auto. Qed.

Lemma plain_runs fuel opt eh X p t : respects_bounds opt -> (forall w, eh (m_cols X) w <> PInf) -> 21 <= fuel ->
  (has_data X /\ finite_data X -> exists g, from_numpy fuel opt eh X p t = Ok g /\ exists w, graph_of g (m_cols X) node "unknown" (entry (m_cols X) w) (keep_gt (w_threshold p))) /\
  (~ (has_data X /\ finite_data X) -> from_numpy fuel opt eh X p t = Err ValueError).
Proof.
  intros RB Fi Hf. unfold from_numpy. destruct (all_finite X) eqn:Ea; cbn [negb].
  2:{ split; auto. intros [_ A]. apply all_finite_iff in A. congruence. }
  apply all_finite_iff in Ea. destruct (Nat.eqb_spec (m_size X) 0) as [Z|Z].
  { split; auto. intros [A _]. apply size_iff in Z. contradiction. }
  split; [|intros N; exfalso; apply N; split; auto; destruct (m_rows X) eqn:Er, (m_cols X) eqn:Ec; unfold m_size in Z; rewrite Er, Ec in Z; cbn in Z; try lia; split; congruence].
  intros _. set (d := m_cols X).
  destruct (ascent_total (eh d) opt (bnds_matrix t free d) fuel (max_iter p) (d * d) (h_tol p)) as (s & b & E & _); [intros; apply Fi|auto|].
  rewrite E. cbn [bind fst]. assert (L : List.length (w_est s) = d * d).
  { eapply ascent_length; [apply bnds_length| |exact RB|exact E]. apply feasible_matrix. auto. }
  destruct (matrix_graph d (cut_le (w_threshold p) (w_est s))) as (g & Eg & _); [unfold cut_le; rewrite map_length; auto|].
  exists g. split; auto. assert (En : from_numpy fuel opt eh X p t = Ok g).
  { unfold from_numpy. rewrite (proj2 (all_finite_iff X) Ea). cbn [negb]. destruct (Nat.eqb_spec (m_size X) 0); [contradiction|]. fold d. rewrite E. exact Eg. }
  destruct (from_numpy_graph _ _ _ _ _ _ _ En) as (w & _ & G & _). eauto.
Qed.

Lemma lasso_runs fuel opt eh X p t : respects_bounds opt -> (forall w, eh (m_cols X) w <> PInf) -> 21 <= fuel ->
  (has_data X /\ finite_data X -> exists g, from_numpy_lasso fuel opt eh X p t = Ok g /\ exists w, graph_of g (m_cols X) node "unknown" w (keep_ge (w_threshold p))) /\
  (~ (has_data X /\ finite_data X) -> from_numpy_lasso fuel opt eh X p t = Err ValueError).
Proof.
  intros RB Fi Hf. unfold from_numpy_lasso. destruct (all_finite X) eqn:Ea; cbn [negb].
  2:{ split; auto. intros [_ A]. apply all_finite_iff in A. congruence. }
  apply all_finite_iff in Ea. destruct (Nat.eqb_spec (m_size X) 0) as [Z|Z].
  { split; auto. intros [A _]. apply size_iff in Z. contradiction. }
  split; [|intros N; exfalso; apply N; split; auto; destruct (m_rows X) eqn:Er, (m_cols X) eqn:Ec; unfold m_size in Z; rewrite Er, Ec in Z; cbn in Z; try lia; split; congruence].
  intros _. set (d := m_cols X). set (bs := bnds_matrix t nonneg d ++ bnds_matrix t nonneg d).
  destruct (ascent_total (fun w => eh d (lasso_matrix d w)) opt bs fuel (max_iter p) (2 * d * d) (h_tol p)) as (s & b & E & _); [intros; apply Fi|auto|].
  rewrite E. cbn [bind fst]. assert (L : List.length (w_est s) = 2 * d * d).
  { eapply (ascent_length _ _ bs); [unfold bs; rewrite app_length, !bnds_length; lia| |exact RB|exact E]. apply Forall_app. split; apply feasible_matrix; auto. }
  destruct (matrix_graph d (cut_lt (w_threshold p) (lasso_matrix d (w_est s)))) as (g & Eg & _).
  { rewrite cut_lt_length. unfold lasso_matrix. rewrite subv_length, firstn_length, skipn_length, L. lia. }
  exists g. split; auto. assert (En : from_numpy_lasso fuel opt eh X p t = Ok g).
  { unfold from_numpy_lasso. rewrite (proj2 (all_finite_iff X) Ea). cbn [negb]. destruct (Nat.eqb_spec (m_size X) 0); [contradiction|]. fold d. fold bs. rewrite E. exact Eg. }
  destruct (from_numpy_lasso_graph _ _ _ _ _ _ _ En) as (w & _ & G & _). eauto.
Qed.

(** ** Names *)
Lemma idx_of_known cols c : NoDup cols -> In c cols -> exists i, idx_of (col_idx cols) c = Ok i.
Proof. intros ND H. apply In_nth_error in H. destruct H as (i & H). rewrite (idx_of_nth cols i c) by auto. eauto. Qed.

Lemma mapM_either {A B} (f : A -> res B) x0 l : (forall x, (exists y, f x = Ok y) \/ f x = Err x0) ->
  ((forall x, In x l -> exists y, f x = Ok y) -> exists ys, mapM f l = Ok ys) /\
  ((exists x, In x l /\ f x = Err x0) -> mapM f l = Err x0).
Proof.
  intros F. induction l as [|a l [IH1 IH2]]; cbn [mapM]; [split; eauto; intros (x & [] & _)|]. split.
  - intros H. destruct (H a (or_introl eq_refl)) as (y & ->). cbn [bind]. destruct IH1 as (ys & ->); [intros; apply H; right; auto|]. cbn. eauto.
  - intros (x & [->|Hx] & E); [rewrite E; auto|]. destruct (F a) as [(y & ->)| ->]; auto. cbn [bind]. rewrite IH2; eauto.
Qed.

Lemma opt_either {A B} (f : A -> res B) x0 (o : option (list A)) : (forall x, (exists y, f x = Ok y) \/ f x = Err x0) ->
  ((forall l x, o = Some l -> In x l -> exists y, f x = Ok y) -> exists ys, opt_mapM f o = Ok ys) /\
  ((exists l x, o = Some l /\ In x l /\ f x = Err x0) -> opt_mapM f o = Err x0) /\
  ((exists ys, opt_mapM f o = Ok ys) \/ opt_mapM f o = Err x0).
Proof.
  intros F. destruct o as [l|]; cbn [opt_mapM].
  - destruct (mapM_either f x0 l F) as [H1 H2]. split; [|split].
    + intros H. destruct H1 as (ys & ->); [intros x; apply (H l x); auto|]. cbn. eauto.
    + intros (l' & x & [= <-] & I & E). rewrite H2 by eauto. auto.
    + clear H1 H2. induction l as [|a l IH]; cbn [mapM]; [left; cbn; eauto|]. destruct (F a) as [(y & ->)| ->]; auto. cbn [bind].
      destruct IH as [(ys & IH)|IH]; destruct (mapM f l); cbn in IH |- *; try discriminate; eauto.
  - split; eauto. split; eauto. intros (l & x & E & _). discriminate.
Qed.

Section Names.
  Context (cols : list label) (ND : NoDup cols).

  Lemma idx_either c : (exists i, idx_of (col_idx cols) c = Ok i) \/ idx_of (col_idx cols) c = Err KeyError.
  Proof. unfold idx_of. destruct (dget _ _ _); eauto. Qed.
  Lemma idx_known_iff c : In c cols <-> exists i, idx_of (col_idx cols) c = Ok i.
  Proof.
    split; [apply idx_of_known; auto|]. intros (i & E). destruct (memb label_eqb c cols) eqn:M; [apply (memb_In _ label_eqb_spec) in M; auto|].
    apply (memb_false _ label_eqb_spec) in M. rewrite idx_of_unknown in E by auto. discriminate.
  Qed.

  Lemma pair_either (u v : label) {B} (k : Z -> Z -> B) :
    ((exists y, (do i <- idx_of (col_idx cols) u; do j <- idx_of (col_idx cols) v; Ok (k i j)) = Ok y) \/
      (do i <- idx_of (col_idx cols) u; do j <- idx_of (col_idx cols) v; Ok (k i j)) = Err KeyError) /\
    ((exists y, (do i <- idx_of (col_idx cols) u; do j <- idx_of (col_idx cols) v; Ok (k i j)) = Ok y) <-> In u cols /\ In v cols).
  Proof.
    rewrite !idx_known_iff. destruct (idx_either u) as [(i & ->)| ->]; cbn [bind].
    2:{ split; auto. split; [intros (y & E)|intros [(i & E) _]]; discriminate. }
    destruct (idx_either v) as [(j & ->)| ->]; cbn [bind]; [split; eauto; split; eauto|]. split; auto. split; [intros (y & E)|intros [_ (y & E)]]; discriminate.
  Qed.

  Lemma err_not_ok {A} (r : res A) x : (exists y, r = Ok y) \/ r = Err x -> ~ (exists y, r = Ok y) -> r = Err x.
  Proof. intros [H|H] N; auto. contradiction. Qed.

  Lemma tabu_known t : (known cols t -> exists tz, tabu_index (col_idx cols) t = Ok tz) /\ (~ known cols t -> tabu_index (col_idx cols) t = Err KeyError).
  Proof.
    unfold tabu_index.
    set (fe := fun uv : label * label => do u <- idx_of (col_idx cols) (fst uv); do v <- idx_of (col_idx cols) (snd uv); Ok (u, v)).
    assert (Fe : forall x, (exists y, fe x = Ok y) \/ fe x = Err KeyError) by (intros [u v]; apply (pair_either u v pair)).
    destruct (opt_either fe KeyError (t_edges t) Fe) as (E1 & E2 & E3).
    destruct (opt_either (idx_of (col_idx cols)) KeyError (t_parents t) idx_either) as (P1 & P2 & P3).
    destruct (opt_either (idx_of (col_idx cols)) KeyError (t_children t) idx_either) as (C1 & C2 & C3).
    split.
    - intros (Ke & Kp & Kc). destruct E1 as (e & ->); [intros l [u v] El I; apply (proj2 (pair_either u v pair)); eapply Ke; eauto|]. cbn [bind].
      destruct P1 as (pp & ->); [intros l u El I; apply idx_known_iff; eapply Kp; eauto|]. cbn [bind].
      destruct C1 as (c & ->); [intros l u El I; apply idx_known_iff; eapply Kc; eauto|]. cbn. eauto.
    - intros N. destruct E3 as [(e & Ee)| ->]; auto. rewrite Ee. cbn [bind]. destruct P3 as [(q & Ep)| ->]; auto. rewrite Ep. cbn [bind].
      destruct C3 as [(c & Ec)| ->]; auto. exfalso. apply N. split; [|split].
      + intros l u v El I. apply (proj2 (pair_either u v pair)). destruct (Fe (u, v)) as [(y & Ef)|Ef]; [exists y; exact Ef|].
        rewrite E2 in Ee; [discriminate|]. exists l, (u, v). auto.
      + intros l u El I. apply idx_known_iff. destruct (idx_either u) as [Ef|Ef]; auto. rewrite P2 in Ep; [discriminate|]. exists l, u. auto.
      + intros l u El I. apply idx_known_iff. destruct (idx_either u) as [Ef|Ef]; auto. rewrite C2 in Ec; [discriminate|]. exists l, u. auto.
  Qed.
End Names.

Lemma dtabu_known names (t : dtabu string) : NoDup names ->
  (known_lagged names t -> exists tz, dtabu_index (col_idx (map LStr names)) t = Ok tz) /\
  (~ known_lagged names t -> dtabu_index (col_idx (map LStr names)) t = Err KeyError).
Proof.
  intros NDn. assert (ND := LStr_NoDup _ NDn). set (cols := map LStr names) in *.
  assert (In_cols : forall u, In (LStr u) cols <-> In u names).
  { intros u. unfold cols. rewrite in_map_iff. split; [intros (x & [= ->] & H); auto|intros H; eauto]. }
  unfold dtabu_index.
  set (fe := fun kuv : Z * string * string => do u <- idx_of (col_idx cols) (LStr (snd (fst kuv))); do v <- idx_of (col_idx cols) (LStr (snd kuv)); Ok (fst (fst kuv), u, v)).
  set (fn := fun n : string => idx_of (col_idx cols) (LStr n)).
  assert (Fe : forall x, (exists y, fe x = Ok y) \/ fe x = Err KeyError) by (intros [[k u] v]; apply (pair_either cols ND (LStr u) (LStr v) (fun i j => (k, i, j)))).
  assert (Fn : forall x, (exists y, fn x = Ok y) \/ fn x = Err KeyError) by (intros x; apply idx_either).
  destruct (opt_either fe KeyError (dt_edges t) Fe) as (E1 & E2 & E3).
  destruct (opt_either fn KeyError (dt_parents t) Fn) as (P1 & P2 & P3).
  destruct (opt_either fn KeyError (dt_children t) Fn) as (C1 & C2 & C3).
  split.
  - intros (Ke & Kp & Kc). destruct E1 as (e & ->).
    { intros l [[k u] v] El I. apply (proj2 (pair_either cols ND (LStr u) (LStr v) (fun i j => (k, i, j)))). rewrite !In_cols. eapply Ke; eauto. }
    cbn [bind]. destruct P1 as (pp & ->); [intros l u El I; apply idx_known_iff, In_cols; auto; eapply Kp; eauto|]. cbn [bind].
    destruct C1 as (c & ->); [intros l u El I; apply idx_known_iff, In_cols; auto; eapply Kc; eauto|]. cbn. eauto.
  - intros N. destruct E3 as [(e & Ee)| ->]; auto. rewrite Ee. cbn [bind]. destruct P3 as [(q & Ep)| ->]; auto. rewrite Ep. cbn [bind].
    destruct C3 as [(c & Ec)| ->]; auto. exfalso. apply N. split; [|split].
    + intros l k u v El I. rewrite <- !In_cols. apply (proj2 (pair_either cols ND (LStr u) (LStr v) (fun i j => (k, i, j)))). destruct (Fe (k, u, v)) as [(y & Ef)|Ef]; [exists y; exact Ef|].
      rewrite E2 in Ee; [discriminate|]. exists l, (k, u, v). auto.
    + intros l u El I. apply In_cols, idx_known_iff; auto. destruct (Fn u) as [Ef|Ef]; auto. rewrite P2 in Ep; [discriminate|]. exists l, u. auto.
    + intros l u El I. apply In_cols, idx_known_iff; auto. destruct (Fn u) as [Ef|Ef]; auto. rewrite C2 in Ec; [discriminate|]. exists l, u. auto.
Qed.

(** ** Data frames *)
Definition numeric (X : frame) : Prop := forall c, In c (f_cols X) -> snd c = true.
Definition as_mat (X : frame) : mat := mkMat (List.length (f_cols X)) (f_rows X).

Theorem pandas_accepts (learn : mat -> tabu Z -> res graph) X t : NoDup (map fst (f_cols X)) ->
  (forall tz, (has_data (as_mat X) /\ finite_data (as_mat X) -> exists g, learn (as_mat X) tz = Ok g /\ exists o w keep, graph_of g (List.length (f_cols X)) node o w keep) /\
    (~ (has_data (as_mat X) /\ finite_data (as_mat X)) -> learn (as_mat X) tz = Err ValueError)) ->
  ((exists g, from_pandas learn X t = Ok g) <-> numeric X /\ known (map fst (f_cols X)) t /\ has_data (as_mat X) /\ finite_data (as_mat X)) /\
  (~ numeric X -> from_pandas learn X t = Err ValueError) /\
  (numeric X -> ~ known (map fst (f_cols X)) t -> from_pandas learn X t = Err KeyError) /\
  (numeric X -> known (map fst (f_cols X)) t -> ~ (has_data (as_mat X) /\ finite_data (as_mat X)) -> from_pandas learn X t = Err ValueError).
Proof.
  intros ND L. destruct (tabu_known _ ND t) as [K1 K2].
  assert (Nu : forallb snd (f_cols X) = true <-> numeric X) by (unfold numeric; rewrite forallb_forall; tauto).
  assert (A : ~ numeric X -> from_pandas learn X t = Err ValueError).
  { intros N. unfold from_pandas. destruct (forallb snd (f_cols X)); auto. exfalso. tauto. }
  assert (B : numeric X -> ~ known (map fst (f_cols X)) t -> from_pandas learn X t = Err KeyError).
  { intros N K. unfold from_pandas. rewrite (proj2 Nu N). cbn [negb]. rewrite K2 by auto. auto. }
  assert (C : numeric X -> known (map fst (f_cols X)) t -> ~ (has_data (as_mat X) /\ finite_data (as_mat X)) -> from_pandas learn X t = Err ValueError).
  { intros N K D. unfold from_pandas. rewrite (proj2 Nu N). cbn [negb]. destruct (K1 K) as (tz & ->). cbn [bind]. rewrite map_length.
    change (mkMat _ _) with (as_mat X). rewrite (proj2 (L tz) D). auto. }
  split; auto. split.
  - intros (g & E). destruct (from_pandas_parts _ _ _ _ E) as (Fb & tz & Et). assert (N : numeric X) by tauto.
    destruct (from_pandas_graph _ _ _ _ ND E) as (tz' & g0 & _ & El & _). split; auto. split.
    + split; [|split].
      * intros l u v El' I. destruct (memb label_eqb u (map fst (f_cols X))) eqn:Mu, (memb label_eqb v (map fst (f_cols X))) eqn:Mv;
          rewrite ?(memb_In _ label_eqb_spec) in Mu; rewrite ?(memb_In _ label_eqb_spec) in Mv; auto; exfalso;
          rewrite ?(memb_false _ label_eqb_spec) in Mu; rewrite ?(memb_false _ label_eqb_spec) in Mv; rewrite K2 in Et; try discriminate; intros (Ke & _); apply (Ke l u v) in I; auto; tauto.
      * intros l u El' I. destruct (memb label_eqb u (map fst (f_cols X))) eqn:Mu; [apply (memb_In _ label_eqb_spec); auto|].
        apply (memb_false _ label_eqb_spec) in Mu. rewrite K2 in Et; [discriminate|]. intros (_ & Kp & _). apply Mu. eapply Kp; eauto.
      * intros l u El' I. destruct (memb label_eqb u (map fst (f_cols X))) eqn:Mu; [apply (memb_In _ label_eqb_spec); auto|].
        apply (memb_false _ label_eqb_spec) in Mu. rewrite K2 in Et; [discriminate|]. intros (_ & _ & Kc). apply Mu. eapply Kc; eauto.
    + destruct (all_finite (as_mat X)) eqn:Fa.
      * apply all_finite_iff in Fa. destruct (Nat.eq_dec (m_size (as_mat X)) 0) as [Z|Z].
        -- apply size_iff in Z. change (mkMat _ _) with (as_mat X) in El. rewrite (proj2 (L tz')) in El; [discriminate|]. tauto.
        -- split; auto. unfold m_size, has_data in *. destruct (m_rows (as_mat X)); [cbn in Z; lia|]. split; [discriminate|]. intros H. rewrite H in Z. lia.
      * change (mkMat _ _) with (as_mat X) in El. rewrite (proj2 (L tz')) in El; [discriminate|]. rewrite <- all_finite_iff. intros [_ H]. congruence.
  - intros (N & K & D). destruct (K1 K) as (tz & Et). destruct (proj1 (L tz) D) as (g & El & o & w & keep & G). eapply from_pandas_ok; eauto. tauto.
Qed.

(** ** DYNOTEARS *)
Definition lags_match (X Xlags : mat) : Prop := List.length (m_rows X) = List.length (m_rows Xlags) /\ exists p, m_cols Xlags = p * m_cols X.

Lemma dynamic_parts fuel opt eh X Xlags par t : respects_bounds opt -> (forall w, eh (m_cols X) w <> PInf) -> 21 <= fuel ->
  (has_data X -> has_data Xlags -> lags_match X Xlags -> exists g b, learn_numpy_dynamic fuel opt eh X Xlags par t = Ok (g, b)) /\
  (m_cols X <> 0 -> ~ (has_data X /\ has_data Xlags /\ lags_match X Xlags) -> learn_numpy_dynamic fuel opt eh X Xlags par t = Err ValueError) /\
  (m_cols X = 0 -> learn_numpy_dynamic fuel opt eh X Xlags par t = Err ZeroDivisionError).
Proof.
  intros RB Fi Hf. unfold learn_numpy_dynamic. destruct (Nat.eqb_spec (m_cols X) 0) as [Hd|Hd].
  { split; [|split]; auto; [intros [_ H]; contradiction|contradiction]. }
  set (d := m_cols X) in *. set (p := m_cols Xlags / d).
  assert (Hm : m_cols Xlags mod d = 0 <-> exists q, m_cols Xlags = q * d).
  { rewrite Nat.mod_divide by auto. unfold Nat.divide. tauto. }
  split; [|split; [|contradiction]].
  - intros D1 D2 [R M]. unfold learn_dynamic. fold d. fold p.
    destruct (Nat.eqb_spec (m_size X) 0) as [Z|_]; [apply size_iff in Z; contradiction|].
    destruct (Nat.eqb_spec (m_size Xlags) 0) as [Z|_]; [apply size_iff in Z; contradiction|].
    rewrite R, Nat.eqb_refl. cbn [negb]. rewrite (proj2 Hm M), Nat.eqb_refl. cbn [negb]. cbv zeta.
    destruct (ascent_total (dyn_h eh d p) opt (dbnds t d p) fuel (max_iter par) (2 * (p + 1) * (d * d)) (h_tol par)) as (s & b & E & _); auto.
    { intros r a x k. unfold dyn_h. destruct (reshape_wa _ _ _); [apply Fi|congruence]. }
    rewrite E. cbn [bind fst snd].
    assert (L : List.length (w_est s) = 2 * (p + 1) * (d * d)).
    { eapply (ascent_length _ _ (dbnds t d p)); [rewrite dbnds_length; lia| |exact RB|exact E].
      eapply Forall_impl; [|apply dbnds_zero]. intros bb Hb. exists 0%Qc. exact Hb. }
    destruct (reshape_wa (w_est s) d p) as [[w a]|e] eqn:Er; cbn [bind fst snd].
    + destruct (reshape_ok _ _ _ _ _ Er) as (_ & Lw & La & _).
      destruct (matrices_graph d p (cut_lt (w_threshold par) w) (cut_lt (w_threshold par) a)) as (g & E2 & _); [lia|rewrite cut_lt_length; auto|rewrite cut_lt_length; auto|].
      rewrite E2. cbn. eauto.
    + exfalso. unfold reshape_wa in Er. replace (2 * (p + 1) * d * d) with (2 * (p + 1) * (d * d)) in Er by lia. rewrite L, Nat.eqb_refl in Er. discriminate.
  - intros _ N. unfold learn_dynamic. fold d.
    destruct (Nat.eqb_spec (m_size X) 0) as [Z1|Z1]; [auto|]. destruct (Nat.eqb_spec (m_size Xlags) 0) as [Z2|Z2]; [auto|].
    destruct (Nat.eqb_spec (List.length (m_rows X)) (List.length (m_rows Xlags))) as [R|R]; cbn [negb]; [|auto].
    destruct (Nat.eqb_spec (m_cols Xlags mod d) 0) as [M|M]; cbn [negb]; [|auto]. exfalso. apply N.
    assert (H : forall Y, m_size Y <> 0 -> has_data Y).
    { intros Y H. unfold m_size, has_data in *. destruct (m_rows Y); [cbn in H; lia|]. split; [discriminate|]. intros H'. rewrite H' in H. lia. }
    split; [auto|]. split; [auto|]. split; auto. apply Hm. auto.
Qed.

(** The series of a data frame. *)
Theorem pandas_dynamic_accepts fuel opt eh l p par t : respects_bounds opt -> (forall d w, eh d w <> PInf) -> 21 <= fuel ->
  NoDup (variables l) -> (forall s, In s l -> well_formed s /\ strict s) ->
  (exists g, from_pandas_dynamic fuel opt eh l p par t = Ok g) <->
  acceptable (variables l) l /\ 1 <= p /\ known_lagged (variables l) t /\ variables l <> [] /\ expected p l <> [].
Proof.
  intros RB Fi Hf ND WS. destruct (dtabu_known (variables l) t ND) as [K1 K2]. set (names := variables l) in *. set (d := List.length names).
  split.
  - intros (g & E). unfold from_pandas_dynamic in E. apply bind_ok in E. destruct E as ([g' b] & E & [= <-]).
    destruct (pandas_dynamic_states _ _ _ _ _ _ _ _ _ ND E) as (X & Xl & tz & g0 & Et & Ek & El & _). fold names in Et, Ek, El. fold d in El.
    assert (A : acceptable names l).
    { unfold ddt_transform in Et. cbn [d_columns] in Et. apply bind_ok in Et. destruct Et as ([] & Ec & _). apply check_input_ok. auto. }
    assert (P : 1 <= p).
    { destruct p; [|lia]. exfalso. destruct (dynamic_parts fuel opt eh (mkMat d (map (map Fin) X)) (mkMat (0 * d) (map (map Fin) Xl)) par tz RB (Fi _) Hf) as (_ & H & H0).
      destruct (Nat.eq_dec d 0) as [Z|Z]; [rewrite H0 in El by auto; discriminate|]. rewrite H in El; [discriminate|auto|]. intros (_ & [_ D] & _). cbn in D. lia. }
    split; auto. split; auto. split.
    { split; [|split].
      - intros l' k u v E1 I. destruct (smem u names) eqn:Mu, (smem v names) eqn:Mv; rewrite ?(memb_In _ String.eqb_spec) in *; auto; exfalso;
          (rewrite K2 in Ek; [discriminate|]); intros (Ke & _); destruct (Ke l' k u v E1 I) as [Iu Iv]; apply (memb_In _ String.eqb_spec) in Iu; apply (memb_In _ String.eqb_spec) in Iv; unfold smem in *; congruence.
      - intros l' u E1 I. destruct (smem u names) eqn:Mu; [apply (memb_In _ String.eqb_spec); auto|]. rewrite K2 in Ek; [discriminate|].
        intros (_ & Kp & _). assert (Iu := Kp l' u E1 I). apply (memb_In _ String.eqb_spec) in Iu. unfold smem in *. congruence.
      - intros l' u E1 I. destruct (smem u names) eqn:Mu; [apply (memb_In _ String.eqb_spec); auto|]. rewrite K2 in Ek; [discriminate|].
        intros (_ & _ & Kc). assert (Iu := Kc l' u E1 I). apply (memb_In _ String.eqb_spec) in Iu. unfold smem in *. congruence. }
    destruct (dynamic_parts fuel opt eh (mkMat d (map (map Fin) X)) (mkMat (p * d) (map (map Fin) Xl)) par tz RB (Fi _) Hf) as (_ & H & H0).
    assert (Hd : d <> 0) by (intros Z; rewrite H0 in El by auto; discriminate).
    split; [intros Z; apply Hd; unfold d; rewrite Z; auto|]. intros Z.
    destruct (rows_aligned (mkDdt p (Some names) false) names l eq_refl P A WS) as (X' & Y' & Et' & F1 & _). cbn [d_p] in F1. rewrite Z in F1. inversion F1; subst X'.
    rewrite Et in Et'. unfold returned in Et'. cbn [d_return_df] in Et'. injection Et' as -> ->. rewrite H in El; [discriminate|exact Hd|]. intros ((Hr & _) & _). apply Hr. reflexivity.
  - intros (A & P & K & Nv & Ne).
    destruct (rows_aligned (mkDdt p (Some names) false) names l eq_refl P A WS) as (X & Y & Et & F1 & F2). cbn [d_p] in F1, F2.
    unfold returned in Et. cbn [d_return_df] in Et. apply F2_length in F1. apply F2_length in F2.
    destruct (K1 K) as (tz & Ek).
    assert (Hd : d <> 0) by (unfold d; destruct names; cbn; congruence).
    assert (Hx : X <> []) by (intros ->; cbn in F1; apply Ne; apply length_zero_iff_nil; auto).
    assert (Hy : Y <> []) by (intros ->; cbn in F2; apply Ne; apply length_zero_iff_nil; auto).
    destruct (dynamic_parts fuel opt eh (mkMat d (map (map Fin) X)) (mkMat (p * d) (map (map Fin) Y)) par tz RB (Fi _) Hf) as (H & _).
    destruct H as (g0 & b & El).
    { split; cbn [m_rows m_cols]; [intros H; apply map_eq_nil in H; contradiction|auto]. }
    { split; cbn [m_rows m_cols]; [intros H; apply map_eq_nil in H; contradiction|nia]. }
    { split; cbn [m_rows m_cols]; [rewrite !map_length; congruence|eauto]. }
    unfold from_pandas_dynamic, learn_pandas_dynamic.
    destruct l as [|first rest]; [destruct A as [A _]; congruence|]. cbn [variables] in names.
    assert (Ef : ddt_fit (ddt_init p) (first :: rest) false = Ok (mkDdt p (Some names) false)).
    { unfold ddt_fit, ddt_init. cbn [d_columns d_p]. assert (C : check_input None (first :: rest) = Ok tt).
      { unfold check_input. destruct A as (_ & Same & A).
        rewrite (mapM_ok_intro _ _ (fun _ => tt)); auto. intros s Hs. destruct (A s Hs) as (A1 & A2 & A3 & _).
        assert (C := proj2 (check_one_ok [] first s)). unfold check_one in *. cbn [forallb] in C.
        assert (Cc : (if existsb (fun c => dtype_eqb (snd c) DObject) (ts_cols s) then Err ValueError
          else if negb (col_list_eqb (ts_cols first) (ts_cols s)) then Err ValueError
          else if negb (increasing (map fst (ts_rows s))) then Err ValueError
          else if negb (ts_int_index s) then Err TypeError else Ok tt) = Ok tt).
        { apply C. split; auto. split; [apply Same; auto; left; auto|]. split; auto. split; auto. intros x []. }
        exact Cc. }
      rewrite C. reflexivity. }
    rewrite Ef. cbn [bind]. rewrite Et. cbn [bind]. change (col_names first) with names. rewrite Ek. cbn [bind]. rewrite map_length. fold d. rewrite El. cbn [bind fst snd].
    destruct (numpy_dynamic_states _ _ _ _ _ _ _ _ _ El) as (_ & _ & w & (_ & G & _) & _). cbn [m_cols] in G. rewrite Nat.div_mul in G by auto.
    set (ff := fun u => match format_name (col_idx (map LStr names)) u with Ok c => c | Err _ => u end).
    rewrite (mapM_ok_intro _ _ (fun e => W3 (ff (fst (fst e))) (ff (snd (fst e))) (weight_of (snd e)))).
    + cbn [bind]. unfold add_weighted_edges_from. change (validate_origin "learned") with (@Ok unit tt). cbn [bind].
      match goal with |- context [put_weighted ?g ?l ?w ?a] => destruct (put_weighted_ok l g w a) as (g' & E) end.
      { intros e He. apply in_map_iff in He. destruct He as (x & <- & _). discriminate. }
      rewrite E. unfold sm_result. cbn [snd fst bind]. eauto.
    + intros e He. assert (X1 : In (fst e) (edges g0)) by (apply in_map; auto). rewrite (surjective_pairing (fst e)) in X1. apply G in X1.
      destruct X1 as (k & i & j & Hk & Hi & Hj & -> & -> & _). unfold ff.
      rewrite (format_dname (map LStr names) i k (cname names i)), (format_dname (map LStr names) j 0 (cname names j)) by (try apply LStr_NoDup; auto; apply cname_nth; auto). reflexivity.
Qed.
