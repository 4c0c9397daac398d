(** * DynoProofs: positions in the DYNOTEARS vector and the graphs built from it. *)
From Coq Require Import List Bool Arith ZArith Lia String QArith Qcanon Permutation.
From Verif Require Import Base Names QcX Digraph SmModel SmProofs SmBuild NotearsModel NotearsProofs NotearsThms TransModel MapperModel MapperProofs MapperThms DynoModel.
Import ListNotations.
Local Open Scope string_scope.
Local Open Scope list_scope.
Local Open Scope nat_scope.

(** ** Specification *)

(** The estimated effect of variable [i] at lag [k] on variable [j]: the positive and the negative part. *)
Definition effect (d : nat) (v : list Qc) (k i j : nat) : Qc :=
  (nth ((2 * k) * (d * d) + (i * d + j)) v 0 - nth ((2 * k + 1) * (d * d) + (i * d + j)) v 0)%Qc.

(** The edges are the triples (lag, from, to) with [keep], each with its weight and the origin. *)
Definition dgraph_of (g : graph) (d p : nat) (name : nat -> nat -> label) (origin : string) (w : nat -> nat -> nat -> Qc) (keep : Qc -> Prop) : Prop :=
  NoDup (edges g) /\
  (forall u v, In (u, v) (edges g) <-> exists k i j, k <= p /\ i < d /\ j < d /\ u = name i k /\ v = name j 0 /\ keep (w k i j)) /\
  (forall k i j, k <= p -> i < d -> j < d -> keep (w k i j) ->
     edge_attrs g (name i k) (name j 0) = Some [("origin", AStr origin); ("weight", ANum (w k i j))]).

Definition dbanned {A} (t : dtabu A) (k : nat) (u v : A) : Prop :=
  (exists l, dt_edges t = Some l /\ In (Z.of_nat k, u, v) l) \/
  (exists l, dt_parents t = Some l /\ In u l) \/
  (exists l, dt_children t = Some l /\ In v l).

(** ** Names *)
Lemma lag_cols_nth d p k i x : k <= p -> i < d -> nth (k * d + i) (lag_cols d p) x = lag_name (dec i) k.
Proof.
  intros Hk Hi. unfold lag_cols. rewrite (nth_blocks (fun l => map (fun v => lag_name (dec v) l) (seq 0 d)) d); auto; try lia.
  - rewrite nth_map_seq; auto.
  - intros. rewrite map_length, seq_length. auto.
Qed.

Lemma lag_cols_length d p : List.length (lag_cols d p) = (1 + p) * d.
Proof. unfold lag_cols. apply length_blocks. intros. rewrite map_length, seq_length. auto. Qed.

Lemma lag_cols_NoDup d p : NoDup (lag_cols d p).
Proof.
  unfold lag_cols. generalize (seq_NoDup (1 + p) 0). induction (seq 0 (1 + p)) as [|l ls IH]; cbn; intros N; [constructor|].
  apply NoDup_cons_iff in N. destruct N as [N ND]. apply NoDup_app_intro.
  - apply FinFun.Injective_map_NoDup; [|apply seq_NoDup]. intros a b E. apply lag_name_inj in E. apply dec_inj. tauto.
  - auto.
  - intros x H1 H2. apply in_map_iff in H1. destruct H1 as (a & <- & _). apply in_flat_map in H2. destruct H2 as (l' & Hl & H2).
    apply in_map_iff in H2. destruct H2 as (b & E & _). apply lag_name_inj in E. destruct E as [_ ->]. tauto.
Qed.

(** ** Vector *)
Lemma subv_nth a b n : n < List.length a -> n < List.length b -> nth n (subv a b) 0%Qc = (nth n a 0 - nth n b 0)%Qc.
Proof.
  intros Ha Hb. unfold subv. set (f := fun xy : Qc * Qc => (fst xy - snd xy)%Qc).
  replace 0%Qc with (f (0, 0)%Qc) at 1 by (unfold f; cbn; ring). rewrite map_nth, nth_combine' by auto. reflexivity.
Qed.

Lemma vrow_nth {A} n (v : list A) m i x : i < n -> nth i (vrow n v m) x = nth (m * n + i) v x.
Proof. intros H. unfold vrow. rewrite nth_firstn' by auto. apply nth_skipn'. Qed.
Lemma vrow_length {A} n (v : list A) m : (m + 1) * n <= List.length v -> List.length (vrow n v m) = n.
Proof. intros H. unfold vrow. rewrite firstn_length, skipn_length. lia. Qed.

Lemma length_blocks_in {A} (f : nat -> list A) d : forall n s, (forall i, s <= i < s + n -> List.length (f i) = d) -> List.length (flat_map f (seq s n)) = n * d.
Proof.
  induction n as [|n IH]; intros s H; cbn; auto. rewrite app_length, H, IH by (intros; try apply H; lia). auto.
Qed.
Lemma nth_blocks_in {A} (f : nat -> list A) d x : forall n s i j, (forall i, s <= i < s + n -> List.length (f i) = d) ->
  i < n -> j < d -> nth (i * d + j) (flat_map f (seq s n)) x = nth j (f (s + i)) x.
Proof.
  induction n as [|n IH]; intros s i j L Hi Hj; [lia|]. cbn [seq flat_map]. destruct i as [|i].
  - cbn. rewrite app_nth1 by (rewrite L; lia). replace (s + 0) with s by lia. auto.
  - rewrite app_nth2 by (rewrite L; cbn; lia). rewrite L by lia. replace (S i * d + j - d) with (i * d + j) by (cbn; lia).
    rewrite IH; try lia; [f_equal; f_equal; lia|]. intros; apply L; lia.
Qed.

Lemma reshape_ok v d p w a : reshape_wa v d p = Ok (w, a) ->
  List.length v = 2 * (p + 1) * (d * d) /\ List.length w = d * d /\ List.length a = p * (d * d) /\
  (forall i j, i < d -> j < d -> entry d w i j = effect d v 0 i j) /\
  (forall k i j, k < p -> i < d -> j < d -> entry d a (k * d + i) j = effect d v (S k) i j).
Proof.
  unfold reshape_wa. destruct (Nat.eqb_spec (List.length v) (2 * (p + 1) * d * d)) as [L0|]; [|discriminate]. cbv zeta. intros H.
  assert (Hw : w = subv (firstn (d * d) v) (firstn (d * d) (skipn (d * d) v))) by congruence.
  assert (Ha : a = subv (flat_map (fun k => vrow (d * d) (skipn (2 * (d * d)) v) (2 * k)) (seq 0 p)) (flat_map (fun k => vrow (d * d) (skipn (2 * (d * d)) v) (2 * k + 1)) (seq 0 p))) by congruence.
  clear H. subst w a.
  assert (L : List.length v = 2 * (p + 1) * (d * d)) by lia. clear L0. split; auto.
  set (n := d * d) in *. set (tail := skipn (2 * n) v).
  assert (Lt : List.length tail = 2 * p * n) by (unfold tail; rewrite skipn_length, L; nia).
  assert (R1 : forall k, k < p -> List.length (vrow n tail (2 * k)) = n) by (intros k Hk; apply vrow_length; rewrite Lt; nia).
  assert (R2 : forall k, k < p -> List.length (vrow n tail (2 * k + 1)) = n) by (intros k Hk; apply vrow_length; rewrite Lt; nia).
  assert (A1 : List.length (flat_map (fun k => vrow n tail (2 * k)) (seq 0 p)) = p * n) by (apply length_blocks_in; intros; apply R1; lia).
  assert (A2 : List.length (flat_map (fun k => vrow n tail (2 * k + 1)) (seq 0 p)) = p * n) by (apply length_blocks_in; intros; apply R2; lia).
  assert (W1 : List.length (firstn n v) = n) by (rewrite firstn_length, L; nia).
  assert (W2 : List.length (firstn n (skipn n v)) = n) by (rewrite firstn_length, skipn_length, L; nia).
  split; [unfold subv; rewrite map_length, combine_length, W1, W2; apply Nat.min_id|].
  split; [unfold subv; rewrite map_length, combine_length, A1, A2; apply Nat.min_id|]. split.
  - intros i j Hi Hj. pose proof (index_lt d i j Hi Hj) as Hx. fold n in Hx. unfold entry, effect. fold n. rewrite subv_nth by lia.
    rewrite !nth_firstn', nth_skipn' by auto. replace ((2 * 0 + 1) * n + (i * d + j)) with (n + (i * d + j)) by lia. reflexivity.
  - intros k i j Hk Hi Hj. pose proof (index_lt d i j Hi Hj) as Hx. fold n in Hx. unfold entry, effect. fold n.
    replace ((k * d + i) * d + j) with (k * n + (i * d + j)) by (unfold n; nia).
    assert (Hp : k * n + (i * d + j) < p * n) by nia.
    rewrite subv_nth by lia.
    rewrite (nth_blocks_in (fun k => vrow n tail (2 * k)) n), (nth_blocks_in (fun k => vrow n tail (2 * k + 1)) n) by (auto; intros; apply R1 || apply R2; lia).
    cbn [plus]. rewrite !vrow_nth by auto. unfold tail. rewrite !nth_skipn'. replace (2 * S k * n + (i * d + j)) with (2 * n + (2 * k * n + (i * d + j))) by lia.
    replace ((2 * S k + 1) * n + (i * d + j)) with (2 * n + ((2 * k + 1) * n + (i * d + j))) by lia. reflexivity.
Qed.

(** ** Bounds *)
Definition dbnd (t : dtabu Z) (k i j : nat) : bound := match k with O => dbnd_w t i j | _ => dbnd_a t k i j end.

Lemma dbnds_blocks t d p : dbnds t d p = flat_map (fun k => twice (dgrid (dbnd t k) d)) (seq 0 (S p)).
Proof.
  unfold dbnds. cbn [seq flat_map]. f_equal. rewrite !flat_map_concat_map. f_equal. apply map_ext_in. intros k Hk. apply in_seq in Hk.
  destruct k; [lia|reflexivity].
Qed.

Lemma dgrid_length f d : List.length (dgrid f d) = d * d.
Proof. unfold dgrid. apply length_blocks. intros. rewrite map_length, seq_length. auto. Qed.
Lemma dgrid_nth f d i j x : i < d -> j < d -> nth (i * d + j) (dgrid f d) x = f i j.
Proof.
  intros Hi Hj. unfold dgrid. rewrite (nth_blocks (fun i => map (f i) (seq 0 d)) d); auto.
  - rewrite nth_map_seq; auto.
  - intros. rewrite map_length, seq_length. auto.
Qed.

Lemma dbnds_length t d p : List.length (dbnds t d p) = S p * (2 * (d * d)).
Proof. rewrite dbnds_blocks. apply length_blocks. intros. unfold twice. rewrite app_length, !dgrid_length. lia. Qed.

Lemma dbnds_nth t d p k i j x : k <= p -> i < d -> j < d ->
  nth ((2 * k) * (d * d) + (i * d + j)) (dbnds t d p) x = dbnd t k i j /\
  nth ((2 * k + 1) * (d * d) + (i * d + j)) (dbnds t d p) x = dbnd t k i j.
Proof.
  intros Hk Hi Hj. pose proof (index_lt d i j Hi Hj) as Hx. rewrite dbnds_blocks.
  assert (L : forall k, List.length (twice (dgrid (dbnd t k) d)) = 2 * (d * d)) by (intros; unfold twice; rewrite app_length, !dgrid_length; lia).
  split.
  - replace (2 * k * (d * d) + (i * d + j)) with (k * (2 * (d * d)) + (i * d + j)) by lia.
    rewrite (nth_blocks (fun k => twice (dgrid (dbnd t k) d)) (2 * (d * d))) by (auto; lia). cbn [plus].
    unfold twice. rewrite app_nth1 by (rewrite dgrid_length; lia). apply dgrid_nth; auto.
  - replace ((2 * k + 1) * (d * d) + (i * d + j)) with (k * (2 * (d * d)) + (d * d + (i * d + j))) by lia.
    rewrite (nth_blocks (fun k => twice (dgrid (dbnd t k) d)) (2 * (d * d))) by (auto; lia). cbn [plus].
    unfold twice. rewrite app_nth2 by (rewrite dgrid_length; lia). rewrite dgrid_length.
    replace (d * d + (i * d + j) - d * d) with (i * d + j) by lia. apply dgrid_nth; auto.
Qed.

Lemma zzzmem_In k x y l : zzzmem k x y l = true <-> In (k, x, y) l.
Proof.
  unfold zzzmem. rewrite existsb_exists. split.
  - intros ([[a b] c] & H & E). cbn in E. apply andb_true_iff in E. destruct E as [E E3]. apply andb_true_iff in E. destruct E as [E1 E2].
    apply Z.eqb_eq in E1, E2, E3. congruence.
  - intros H. exists (k, x, y). split; auto. cbn. rewrite !Z.eqb_refl. auto.
Qed.

Lemma dbnd_banned t k i j : (k = 0 /\ i = j) \/ dbanned t k (Z.of_nat i) (Z.of_nat j) -> dbnd t k i j = fixed0.
Proof.
  intros H.
  assert (A : dbanned t k (Z.of_nat i) (Z.of_nat j) -> dbnd_a t k i j = fixed0).
  { intros B. unfold dbnd_a.
    destruct (on_list (dt_edges t) _) eqn:E1; auto. destruct (on_list (dt_parents t) _) eqn:E2; auto.
    destruct (on_list (dt_children t) _) eqn:E3; auto. exfalso.
    destruct B as [(l & El & I)|[(l & El & I)|(l & El & I)]]; rewrite El in *; cbn [on_list] in *.
    - apply zzzmem_In in I. congruence.
    - apply zmem_In in I. congruence.
    - apply zmem_In in I. congruence. }
  destruct k as [|k]; cbn [dbnd].
  - assert (W : dbnd_w t i j = if i =? j then fixed0 else dbnd_a t 0 i j) by reflexivity. rewrite W.
    destruct (Nat.eqb_spec i j) as [E|E]; auto. destruct H as [[_ H]|H]; [congruence|auto].
  - destruct H as [[H _]|H]; [discriminate|auto].
Qed.

Lemma dbnds_zero t d p : Forall (fun b => in_bound b 0%Qc) (dbnds t d p).
Proof.
  rewrite dbnds_blocks. apply Forall_forall. intros b Hb. apply in_flat_map in Hb. destruct Hb as (k & _ & Hb).
  unfold twice in Hb. rewrite in_app_iff in Hb. assert (Hb' : In b (dgrid (dbnd t k) d)) by tauto. unfold dgrid in Hb'.
  apply in_flat_map in Hb'. destruct Hb' as (i & _ & Hb'). apply in_map_iff in Hb'. destruct Hb' as (j & <- & _).
  assert (Z : in_bound fixed0 0%Qc) by (apply in_fixed0; auto). assert (P : in_bound nonneg 0%Qc) by (apply in_nonneg; apply Qcle_refl).
  destruct k; cbn; unfold dbnd_w, dbnd_a; repeat match goal with |- in_bound (if ?b then _ else _) _ => destruct b; auto end; auto.
Qed.

(** ** Graphs *)
Lemma put_edges_app es : forall es' g attr, put_edges g (es ++ es') attr = (let r := put_edges g es attr in match snd r with Ok _ => put_edges (fst r) es' attr | Err _ => r end).
Proof. induction es as [|[u v|u v dd|] es IH]; intros es' g attr; cbn [app put_edges]; auto. Qed.

Lemma list_prod_app {A B} (l l' : list A) (m : list B) : list_prod (l ++ l') m = list_prod l m ++ list_prod l' m.
Proof. induction l; cbn; auto. rewrite IHl, app_assoc. auto. Qed.
Lemma list_prod_map {A A' B} (f : A -> A') (l : list A) (m : list B) : list_prod (map f l) m = map (fun ab => (f (fst ab), snd ab)) (list_prod l m).
Proof. induction l; cbn; auto. rewrite map_app, map_map, IHl. auto. Qed.
Lemma filter_map {A B} (f : A -> B) (P : B -> bool) l : filter P (map f l) = map f (filter (fun x => P (f x)) l).
Proof. induction l; cbn; auto. rewrite IHl. destruct (P (f a)); auto. Qed.

Definition dname (i k : nat) : label := LStr (lag_name (dec i) k).

Lemma dname_inj i k j l : dname i k = dname j l -> i = j /\ k = l.
Proof. intros [= H]. apply lag_name_inj in H. destruct H as [H ->]. apply dec_inj in H. auto. Qed.

Lemma matrices_graph d p w a : 0 < d -> List.length w = d * d -> List.length a = p * (d * d) ->
  exists g, matrices_to_sm d p w a = Ok g /\ wf g /\ nodes g = map LStr (lag_cols d p) /\
    forall u v at', edge_attrs g u v = Some at' <->
      exists k i j x, k <= p /\ i < d /\ j < d /\ u = dname i k /\ v = dname j 0 /\
        x = entry d (w ++ a) (k * d + i) j /\ x <> 0%Qc /\ at' = weight_attrs "unknown" x.
Proof.
  intros Hd Lw La. set (full := w ++ a).
  set (nm := fun i => LStr (nth i (lag_cols d p) "")).
  assert (E1 : forall i j, i < d -> j < d -> entry d full i j = entry d w i j).
  { intros i j Hi Hj. unfold entry, full. apply app_nth1. rewrite Lw. apply index_lt; auto. }
  assert (E2 : forall i j, j < d -> entry d full (i + d) j = entry d a i j).
  { intros i j Hj. unfold entry, full. rewrite app_nth2 by (rewrite Lw; nia). f_equal. rewrite Lw. nia. }
  set (es := map (fun ij => (nm (fst ij), nm (snd ij), [("weight", ANum (entry d full (fst ij) (snd ij)))]))
                 (filter (fun ij => qnz (entry d full (fst ij) (snd ij))) (list_prod (seq 0 (d + p * d)) (seq 0 d)))).
  destruct (build (map LStr (lag_cols d p)) es (with_origin [] "unknown")) as (g & E & W & N & A).
  - apply FinFun.Injective_map_NoDup; [intros x y [= H]; auto|apply lag_cols_NoDup].
  - unfold es. rewrite map_map. cbn [fst].
    assert (Inj : forall i j, i < d + p * d -> j < d + p * d -> nm i = nm j -> i = j).
    { intros i j Hi Hj [= H]. apply (proj1 (NoDup_nth (lag_cols d p) "") (lag_cols_NoDup d p)); auto; rewrite lag_cols_length; lia. }
    assert (Hin : forall ij, In ij (filter (fun ij => qnz (entry d full (fst ij) (snd ij))) (list_prod (seq 0 (d + p * d)) (seq 0 d))) -> fst ij < d + p * d /\ snd ij < d).
    { intros [i j] Hij. apply filter_In in Hij. destruct Hij as [Hij _]. apply in_prod_iff in Hij. rewrite !in_seq in Hij. cbn. lia. }
    assert (Nd : NoDup (filter (fun ij => qnz (entry d full (fst ij) (snd ij))) (list_prod (seq 0 (d + p * d)) (seq 0 d)))).
    { apply NoDup_filter. apply NoDup_prod; apply seq_NoDup. }
    clear - Inj Hin Nd. induction (filter _ _) as [|x l IH]; cbn; [constructor|]. apply NoDup_cons_iff in Nd. destruct Nd as [Nx Nd].
    constructor; [|apply IH; auto; intros; apply Hin; right; auto].
    intros I. apply in_map_iff in I. destruct I as (y & Ey & Iy). apply Nx. replace x with y; auto.
    destruct (Hin x) as [X1 X2]; [left; auto|]. destruct (Hin y) as [Y1 Y2]; [right; auto|].
    injection Ey as Ey1 Ey2. destruct x as [x1 x2], y as [y1 y2]. cbn [fst snd] in *. f_equal; apply Inj; auto; try lia.
    + unfold nm. f_equal. auto.
    + unfold nm. f_equal. auto.
  - intros u v dd I. unfold es in I. apply in_map_iff in I. destruct I as ([i j] & [= <- <- _] & I). apply filter_In in I. destruct I as [I _].
    apply in_prod_iff in I. rewrite !in_seq in I. unfold nm. cbn [fst snd]. split; apply in_map; apply nth_In; rewrite lag_cols_length; lia.
  - exists g. split.
    + unfold matrices_to_sm. fold nm.
      assert (Es : map e3 es =
        map (fun ij => E3 (nm (fst ij + 0)) (nm (snd ij)) [("weight", ANum (entry d w (fst ij) (snd ij)))]) (filter (fun ij => qnz (entry d w (fst ij) (snd ij))) (list_prod (seq 0 d) (seq 0 d))) ++
        map (fun ij => E3 (nm (fst ij + d)) (nm (snd ij)) [("weight", ANum (entry d a (fst ij) (snd ij)))]) (filter (fun ij => qnz (entry d a (fst ij) (snd ij))) (list_prod (seq 0 (p * d)) (seq 0 d)))).
      { unfold es. rewrite seq_app, list_prod_app, filter_app, map_app, map_app. f_equal.
        - rewrite map_map.
          assert (Ef : filter (fun ij => qnz (entry d full (fst ij) (snd ij))) (list_prod (seq 0 d) (seq 0 d)) = filter (fun ij => qnz (entry d w (fst ij) (snd ij))) (list_prod (seq 0 d) (seq 0 d))).
          { apply filter_ext_in. intros [i j] Hij. apply in_prod_iff in Hij. rewrite !in_seq in Hij. cbn [fst snd]. rewrite E1 by lia. auto. }
          rewrite Ef. apply map_ext_in. intros [i j] Hij. apply filter_In in Hij. destruct Hij as [Hij _]. apply in_prod_iff in Hij. rewrite !in_seq in Hij.
          unfold e3. cbn [fst snd]. rewrite E1 by lia. rewrite Nat.add_0_r. auto.
        - cbn [plus]. replace (seq d (p * d)) with (map (fun i => i + d) (seq 0 (p * d))).
          2:{ clear. generalize (p * d) as n. intros n. transitivity (seq (0 + d) n); [|auto]. generalize 0 as s. induction n; intros s; cbn; auto. f_equal. apply (IHn (S s)). }
          rewrite list_prod_map, filter_map, !map_map. cbn [fst snd].
          assert (Ef : filter (fun x => qnz (entry d full (fst x + d) (snd x))) (list_prod (seq 0 (p * d)) (seq 0 d)) = filter (fun ij => qnz (entry d a (fst ij) (snd ij))) (list_prod (seq 0 (p * d)) (seq 0 d))).
          { apply filter_ext_in. intros [i j] Hij. apply in_prod_iff in Hij. rewrite !in_seq in Hij. cbn [fst snd]. rewrite E2 by lia. auto. }
          rewrite Ef. apply map_ext_in. intros [i j] Hij. apply filter_In in Hij. destruct Hij as [Hij _]. apply in_prod_iff in Hij. rewrite !in_seq in Hij.
          unfold e3. cbn [fst snd]. rewrite E2 by lia. auto. }
      rewrite Es, put_edges_app in E. cbv zeta in E.
      unfold add_edges_from. replace (validate_origin "unknown") with (@Ok unit tt) by reflexivity.
      destruct (put_edges (fold_left add_node (map LStr (lag_cols d p)) []) _ _) as [g1 [[]|e1]] eqn:P1; cbn [snd fst] in E; [|discriminate].
      transitivity (sm_result (g, @Ok unit tt)); [|reflexivity]. rewrite <- E. reflexivity.
    + split; auto. split; auto. intros u v at'. rewrite A. split.
      * intros (dd & I & ->). unfold es in I. apply in_map_iff in I. destruct I as ([r j] & [= <- <- <-] & I). apply filter_In in I. destruct I as [I Q].
        apply in_prod_iff in I. rewrite !in_seq in I. cbn [fst snd] in *. apply qnz_iff in Q.
        assert (Hd0 : d <> 0) by lia. pose proof (Nat.div_mod r d Hd0) as DM. pose proof (Nat.mod_upper_bound r d Hd0) as MB.
        assert (Kp : r / d <= p) by (assert (r / d < 1 + p); [apply Nat.div_lt_upper_bound; lia|lia]).
        exists (r / d), (r mod d), j, (entry d full r j).
        assert (Er : r / d * d + r mod d = r) by lia.
        split; [exact Kp|]. split; [exact MB|]. split; [lia|]. split; [|split; [|split; [|split; [exact Q|reflexivity]]]].
        -- unfold dname, nm. f_equal. rewrite <- Er at 1. apply lag_cols_nth; auto.
        -- unfold dname, nm. f_equal. apply (lag_cols_nth d p 0 j); lia.
        -- rewrite Er. auto.
      * intros (k & i & j & x & Hk & Hi & Hj & -> & -> & -> & Q & ->). exists [("weight", ANum (entry d full (k * d + i) j))]. split; auto.
        unfold es. apply in_map_iff. exists (k * d + i, j). cbn [fst snd]. split.
        -- unfold nm, dname. rewrite (lag_cols_nth d p k i) by auto. rewrite (lag_cols_nth d p 0 j) by lia. auto.
        -- apply filter_In. split; [|apply qnz_iff; auto]. apply in_prod_iff. rewrite !in_seq. nia.
Qed.
