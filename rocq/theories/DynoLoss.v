(** * DynoLoss: what DYNOTEARS fits, and acyclicity of its result. *)
From Coq Require Import List Bool Arith ZArith Lia String QArith Qcanon Qreals Reals Lra Relations.
From Verif Require Import Base Names QcX Digraph SmModel SmProofs NotearsModel NotearsProofs NotearsThms TransModel TransProofs TransThms DynoModel DynoProofs DynoThms AcycModel AcycProofs AcycThms AcycLink.
Import ListNotations.
Local Open Scope string_scope.
Local Open Scope list_scope.
Local Open Scope nat_scope.

(** ** Specification: the vector autoregression with effects of the current and the lagged variables *)
(** What time series hold at a time; 0 where there is nothing. *)
Definition val (t : series) (time : Z) (c : string) : Qc := match value t time c with Some x => x | None => 0%Qc end.

Definition explained (names : list string) (p : nat) (v : list Qc) (t : series) (time : Z) (j : nat) : Qc :=
  Qsum (fun k => Qsum (fun i => effect (List.length names) v k i j * val t (time - Z.of_nat k) (nth i names ""))%Qc (seq 0 (List.length names))) (seq 0 (p + 1)).

Definition squared_error (names : list string) (p : nat) (v : list Qc) (l : list (series * Z)) : Qc :=
  Qsum (fun st => Qsum (fun j => let e := (val (fst st) (snd st) (nth j names "") - explained names p v (fst st) (snd st) j)%Qc in (e * e)%Qc) (seq 0 (List.length names))) l.

(** ** Proofs *)
Lemma Qsum_blocks (f : nat -> Qc) d p : Qsum f (seq 0 (p * d)) = Qsum (fun k => Qsum (fun i => f (k * d + i)) (seq 0 d)) (seq 0 p).
Proof.
  induction p as [|p IH]; auto. replace (S p * d) with (p * d + d) by lia. rewrite seq_app, Qsum_app, IH. rewrite seq_S, Qsum_app, Qsum_cons, Qsum_nil.
  cbn [plus]. f_equal. rewrite Qcplus_0_r.
  assert (S : forall n s, Qsum f (seq (s + p * d) n) = Qsum (fun i => f (p * d + i)) (seq s n)).
  { induction n as [|n IHn]; intros s; cbn [seq]; [reflexivity|]. rewrite !Qsum_cons. f_equal; [f_equal; lia|]. rewrite <- IHn. reflexivity. }
  apply (S d 0).
Qed.

Lemma Qsum_shift (f : nat -> Qc) n : Qsum f (seq 1 n) = Qsum (fun k => f (S k)) (seq 0 n).
Proof. rewrite <- seq_shift, Qsum_map. auto. Qed.

Lemma Qsum_sub {A} (f g : A -> Qc) l : (Qsum f l - Qsum g l)%Qc = Qsum (fun x => f x - g x)%Qc l.
Proof. induction l as [|a l IH]; [cbn; ring|]. rewrite !Qsum_cons, <- IH. ring. Qed.

Lemma eye_sum d (x : nat -> Qc) j : j < d -> Qsum (fun i => x i * eye i j)%Qc (seq 0 d) = x j.
Proof.
  intros H. rewrite (Qsum_single _ (seq 0 d) j).
  - unfold eye. rewrite Nat.eqb_refl. ring.
  - apply seq_NoDup.
  - apply in_seq. lia.
  - intros i _ N. unfold eye. destruct (Nat.eqb_spec i j); [congruence|]. ring.
Qed.

Lemma row_val t time names (row : list Qc) i : map Some row = map (value t time) names -> i < List.length names -> nth i row 0%Qc = val t time (nth i names "").
Proof.
  intros H Hi. unfold val. assert (E : nth_error (map Some row) i = nth_error (map (value t time) names) i) by congruence.
  rewrite !nth_error_map, (nth_error_nth' names "") in E by auto. cbn in E.
  destruct (nth_error row i) as [x|] eqn:N; [|discriminate]. cbn in E. injection E as E. rewrite <- E. apply nth_error_nth with (1 := N).
Qed.

Lemma lag_row_val t time names p (row : list Qc) k i : map Some row = flat_map (fun k => map (value t (time - Z.of_nat k)) names) (seq 1 p) ->
  k < p -> i < List.length names -> nth (k * List.length names + i) row 0%Qc = val t (time - Z.of_nat (S k)) (nth i names "").
Proof.
  intros H Hk Hi. unfold val.
  assert (E : nth_error (map Some row) (k * List.length names + i) = Some (value t (time - Z.of_nat (S k)) (nth i names ""))).
  { rewrite H. apply (block_position (fun k => map (value t (time - Z.of_nat k)) names)); auto.
    - intros; apply map_length.
    - rewrite nth_error_map, (nth_error_nth' names "") by auto. reflexivity. }
  rewrite nth_error_map in E. destruct (nth_error row (k * List.length names + i)) as [x|] eqn:N; [|discriminate]. cbn [option_map] in E.
  assert (E1 : value t (time - Z.of_nat (S k)) (nth i names "") = Some x) by congruence. rewrite E1.
  apply nth_error_nth with (1 := N).
Qed.

Theorem loss_is_autoregression l p v X Xlags q : let names := variables l in
  1 <= p -> acceptable names l -> (forall t, In t l -> well_formed t /\ strict t) ->
  ddt_transform (mkDdt p (Some names) false) l = Ok (Arrays X Xlags) ->
  dyn_loss (List.length names) p X Xlags v = Ok q ->
  q = (Q2Qc (1 # 2) / Q2Qc (inject_Z (Z.of_nat (List.length (expected p l)))) * squared_error names p v (expected p l))%Qc.
Proof.
  intros names Hp Ha Hw Et El. set (d := List.length names) in *.
  destruct (rows_aligned (mkDdt p (Some names) false) names l eq_refl Hp Ha Hw) as (X' & Y' & E' & FX & FY).
  cbn [d_p] in *. rewrite Et in E'. injection E' as <- <-.
  unfold dyn_loss in El. apply bind_ok in El. destruct El as ([w a] & Er & El). injection El as El. cbn [fst snd] in El. subst q.
  destruct (reshape_ok _ _ _ _ _ Er) as (_ & _ & _ & Ew & Ea).
  assert (Ln : List.length X = List.length (expected p l)) by (clear - FX; induction FX; cbn; auto). rewrite Ln. f_equal. unfold squared_error. clear Ln Et.
  revert FX FY. generalize (expected p l) as es. intros es FX. revert Xlags.
  induction FX as [|st x es X Hx FX IH]; intros Y FY; inversion FY as [|? y ? Y' Hy FY']; subst; [reflexivity|].
  cbn [combine]. rewrite !Qsum_cons. f_equal; [|apply IH; auto]. clear IH FX FY FY'. cbn [fst snd].
  apply Qsum_ext. intros j Hj. apply in_seq in Hj. fold d in Hj.
  assert (R : (Qsum (fun i => nth i x 0 * (eye i j - entry d w i j)) (seq 0 d) - Qsum (fun m => nth m y 0 * entry d a m j) (seq 0 (p * d)))%Qc
     = (val (fst st) (snd st) (nth j names "") - explained names p v (fst st) (snd st) j)%Qc); [|rewrite R; reflexivity].
  unfold explained. fold d. replace (p + 1) with (S p) by lia. cbn [seq]. rewrite Qsum_cons, Qsum_shift, Qsum_blocks.
  rewrite (Qsum_ext _ (fun i => nth i x 0 * eye i j - effect d v 0 i j * val (fst st) (snd st - Z.of_nat 0) (nth i names ""))%Qc).
  - rewrite <- Qsum_sub. rewrite eye_sum by lia. rewrite (row_val (fst st) (snd st) names x j Hx) by lia.
    rewrite (Qsum_ext (fun k => Qsum (fun i => nth (k * d + i) y 0 * entry d a (k * d + i) j)%Qc (seq 0 d))
              (fun k => Qsum (fun i => effect d v (S k) i j * val (fst st) (snd st - Z.of_nat (S k)) (nth i names ""))%Qc (seq 0 d))).
    + ring.
    + intros k Hk. apply in_seq in Hk. apply Qsum_ext. intros i Hi. apply in_seq in Hi. rewrite Ea by lia.
      unfold d. rewrite (lag_row_val (fst st) (snd st) names p y k i Hy) by (auto; unfold d in *; lia). ring.
  - intros i Hi. apply in_seq in Hi. rewrite (row_val (fst st) (snd st) names x i Hx) by (unfold d in *; lia). rewrite Ew by lia.
    replace (snd st - Z.of_nat 0)%Z with (snd st) by lia. ring.
Qed.

(** ** Acyclicity *)
Lemma dpath_end g d p name o w keep x y : dgraph_of g d p name o w keep -> path (edges g) x y -> exists j, j < d /\ y = name j 0.
Proof.
  intros (_ & G & _) P. induction P as [x y H|x y z H P IH]; auto. apply G in H. destruct H as (k & i & j & _ & _ & Hj & _ & -> & _). eauto.
Qed.

Lemma dpath_index g d p name o w keep (E : nat -> nat -> Prop) : dgraph_of g d p name o w keep ->
  (forall i k j l, i < d -> j < d -> name i k = name j l -> i = j /\ k = l) ->
  (forall i j, i < d -> j < d -> keep (w 0 i j) -> E i j) ->
  forall x y, path (edges g) x y -> forall i, i < d -> x = name i 0 -> exists j, j < d /\ y = name j 0 /\ clos_trans nat E i j.
Proof.
  intros (_ & G & _) Inj K x y P. induction P as [x y H|x y z H P IH]; intros i0 Hi0 E0.
  - apply G in H. destruct H as (k & i & j & Hk & Hi & Hj & Ex & -> & Q). rewrite E0 in Ex. apply Inj in Ex; auto. destruct Ex as [-> <-].
    exists j. repeat split; auto. apply t_step. auto.
  - apply G in H. destruct H as (k & i & j & Hk & Hi & Hj & Ex & Ey & Q). rewrite E0 in Ex. apply Inj in Ex; auto. destruct Ex as [-> <-].
    destruct (IH j Hj Ey) as (m & Hm & -> & C). exists m. repeat split; auto. apply t_trans with j; auto. apply t_step. auto.
Qed.

Lemma dgraph_acyclic g d p name o w keep (t : Qc) h tol : dgraph_of g d p name o w keep ->
  (forall i k j l, i < d -> j < d -> name i k = name j l -> i = j /\ k = l) ->
  (forall x, keep x -> (t <= Qcabs x)%Qc) -> (0 <= t)%Qc ->
  exp_penalty d (fun i j => realq (w 0 i j)) h -> (h <= tol)%R -> excludes d (realq t) tol -> acyclic (edges g).
Proof.
  intros G Inj K Ht P Hh X x C.
  destruct (dpath_end _ _ _ _ _ _ _ _ _ G C) as (i & Hi & Ex).
  destruct (dpath_index g d p name o w keep (fun i j => i < d /\ j < d /\ (realq t * realq t <= realq (w O i j) * realq (w O i j))%R) G Inj) with (x := x) (y := x) (i := i)
    as (j & Hj & E2 & T); auto.
  - intros a b Ha Hb Kw. repeat split; auto. apply K in Kw. apply realq_le in Kw. rewrite realq_abs in Kw.
    apply realq_le in Ht. rewrite realq_0 in Ht. rewrite <- (Rabs_right (realq t)) in Kw by lra. apply Rsqr_le_abs_1 in Kw. exact Kw.
  - assert (i = j) by (rewrite Ex in E2; apply Inj in E2; tauto). subst j.
    refine (exp_threshold d _ h (realq t * realq t) P _ _ i T).
    + apply Rle_0_sqr.
    + intros L HL. replace ((realq t * realq t) ^ L)%R with (realq t ^ (2 * L))%R by (rewrite pow_mult; f_equal; cbn; lra).
      apply Rle_lt_trans with (2 := X L HL). apply Rmult_le_compat_l; auto. left. apply fact_pos.
Qed.

Lemma rsum_same d f g : (forall i, i < d -> f i = g i) -> rsum d f = rsum d g.
Proof.
  intros H. unfold rsum. assert (H' : forall i, In i (seq 0 d) -> f i = g i) by (intros i Hi; apply in_seq in Hi; apply H; lia).
  induction (seq 0 d) as [|a l IH]; cbn [lsum]; auto. rewrite IH, H'; auto; [left; auto|]. intros; apply H'; right; auto.
Qed.

Lemma exp_penalty_eq d W W' h : (forall i j, i < d -> j < d -> W i j = W' i j) -> exp_penalty d W h -> exp_penalty d W' h.
Proof.
  intros E. unfold exp_penalty, infinite_sum. intros H eps He. destruct (H eps He) as (N & HN). exists N. intros n Hn.
  specialize (HN n Hn). erewrite sum_eq; [exact HN|]. intros i Hi. cbn beta. f_equal.
  assert (M : forall k a b, a < d -> b < d -> mpow d (squared W') k a b = mpow d (squared W) k a b).
  { induction k as [|k IH]; intros a b Ha Hb; [reflexivity|]. cbn [mpow]. unfold mmul. apply rsum_same. intros c Hc. rewrite IH by auto. unfold squared. rewrite E by auto. reflexivity. }
  unfold tr. apply rsum_same. intros a Ha. apply M; auto.
Qed.

Theorem numpy_dynamic_acyclic fuel opt eh X Xlags par t g delta :
  learn_numpy_dynamic fuel opt eh X Xlags par t = Ok (g, false) ->
  (forall bnds r a x k wa, reshape_wa (opt bnds r a x k) (m_cols X) (m_cols Xlags / m_cols X) = Ok wa -> within delta eh (m_cols X) (fst wa)) ->
  (0 <= w_threshold par)%Qc ->
  excludes (m_cols X) (realq (w_threshold par)) (realq (h_tol par) + delta) -> acyclic (edges g).
Proof.
  intros H Wi Ht Ex. destruct (numpy_dynamic_states _ _ _ _ _ _ _ _ _ H) as (_ & _ & v & G & S & _ & _ & [w a] & Er).
  set (d := m_cols X) in *. set (p := m_cols Xlags / d) in *. destruct (reshape_ok _ _ _ _ _ Er) as (_ & _ & _ & Ew & _).
  assert (Inj : forall i k j l, i < d -> j < d -> dname i k = dname j l -> i = j /\ k = l) by (intros; apply dname_inj; auto).
  destruct S as [[_ Sv]|(_ & r & al & x & k & Sv & Eb)].
  - apply no_edges_acyclic. destruct G as (_ & G & _). destruct (edges g) as [|[u y] l] eqn:E; auto. exfalso.
    destruct (proj1 (G u y) (or_introl eq_refl)) as (k & i & j & _ & _ & _ & _ & _ & [Nz _]). apply Nz. rewrite Sv. unfold effect. rewrite !nth_repeat. ring.
  - destruct (exp_penalty_ex d (fun i j => realq (entry d w i j))) as (h & P).
    rewrite Sv in Er. pose proof (Wi _ _ _ _ _ _ Er) as Wn. cbn [fst] in Wn. pose proof Wn as (q & Eq & _).
    eapply (dgraph_acyclic g d p dname _ (effect d v) _ (w_threshold par) h); [exact G|exact Inj|intros y Hy; apply Hy|exact Ht| | |exact Ex].
    + eapply exp_penalty_eq; [|exact P]. intros i j Hi Hj. cbn beta. rewrite Ew by auto. reflexivity.
    + eapply within_le; [exact Wn|exact Eq|exact P|]. unfold dyn_h in Eb. rewrite Sv, Er in Eb. cbn [fst] in Eb. rewrite Eq in Eb. cbn in Eb.
      symmetry in Eb. apply qlt_false in Eb. auto.
Qed.

Theorem pandas_dynamic_acyclic fuel opt eh l p par t g delta : NoDup (variables l) ->
  learn_pandas_dynamic fuel opt eh l p par t = Ok (g, false) ->
  (forall bnds r a x k wa, reshape_wa (opt bnds r a x k) (List.length (variables l)) p = Ok wa -> within delta eh (List.length (variables l)) (fst wa)) ->
  (0 <= w_threshold par)%Qc ->
  excludes (List.length (variables l)) (realq (w_threshold par)) (realq (h_tol par) + delta) -> acyclic (edges g).
Proof.
  intros ND H Wi Ht Ex. destruct (pandas_dynamic_states _ _ _ _ _ _ _ _ _ ND H) as (X & Xl & tz & g0 & _ & _ & El & _ & T).
  destruct (numpy_dynamic_states _ _ _ _ _ _ _ _ _ El) as (Hd & _ & v & G & S & _ & _ & [w a] & Er). cbn [m_cols] in *. rewrite Nat.div_mul in * by lia.
  apply T in G. set (d := List.length (variables l)) in *. destruct (reshape_ok _ _ _ _ _ Er) as (_ & _ & _ & Ew & _).
  assert (Inj : forall i k j m, i < d -> j < d -> pname (variables l) i k = pname (variables l) j m -> i = j /\ k = m) by (intros; eapply pname_inj; eauto).
  destruct S as [[_ Sv]|(_ & r & al & x & k & Sv & Eb)].
  - apply no_edges_acyclic. destruct G as (_ & G & _). destruct (edges g) as [|[u y] es] eqn:E; auto. exfalso.
    destruct (proj1 (G u y) (or_introl eq_refl)) as (k & i & j & _ & _ & _ & _ & _ & [Nz _]). apply Nz. rewrite Sv. unfold effect. rewrite !nth_repeat. ring.
  - destruct (exp_penalty_ex d (fun i j => realq (entry d w i j))) as (h & P).
    rewrite Sv in Er. pose proof (Wi _ _ _ _ _ _ Er) as Wn. cbn [fst] in Wn. pose proof Wn as (q & Eq & _).
    eapply (dgraph_acyclic g d p (pname (variables l)) _ (effect d v) _ (w_threshold par) h); [exact G|exact Inj|intros y Hy; apply Hy|exact Ht| | |exact Ex].
    + eapply exp_penalty_eq; [|exact P]. intros i j Hi Hj. cbn beta. rewrite Ew by auto. reflexivity.
    + eapply within_le; [exact Wn|exact Eq|exact P|]. unfold dyn_h in Eb. rewrite Sv, Er in Eb. cbn [fst] in Eb. rewrite Eq in Eb. cbn in Eb.
      symmetry in Eb. apply qlt_false in Eb. auto.
Qed.
