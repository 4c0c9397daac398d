(** * DynGenData: the rows of generate_dataframe_dynamic. *)
From Coq Require Import List Bool Arith ZArith Lia String QArith Qcanon Permutation.
From Verif Require Import Base Names Digraph SmModel SmProofs QcX NetModel NotearsModel NotearsProofs TorchModel MapperModel MapperThms GenModel DynGenModel.
Import ListNotations.
Local Open Scope string_scope.
Local Open Scope list_scope.
Local Open Scope nat_scope.

(** ** One row *)
(** What networkx promises: every vertex once, after its parents. *)
Definition topo_order (w : qmat) (d : nat) (l : list nat) : Prop :=
  Permutation l (seq 0 d) /\ forall l1 j l2, l = l1 ++ j :: l2 -> forall i, i < d -> w i j <> 0%Qc -> In i l1.

Lemma fold_upd (F : (nat -> Qc) -> nat -> Qc) l : forall x i, ~ In i l -> fold_left (fun x j i => if i =? j then F x j else x i) l x i = x i.
Proof.
  induction l as [|j l IH]; intros x i N; cbn [fold_left]; auto. rewrite IH by (intros C; apply N; cbn; auto).
  destruct (Nat.eqb_spec i j) as [->|]; auto. exfalso. apply N. cbn. auto.
Qed.

Lemma Qsum_support (f : nat -> Qc) (q : nat -> bool) n : (forall k, k < n -> q k = false -> f k = 0%Qc) -> Qsum f (filter q (seq 0 n)) = Qsum f (seq 0 n).
Proof.
  intros H. rewrite Qsum_filter. apply Qsum_ext. intros k Hk. apply in_seq in Hk. destruct (q k) eqn:E; auto. symmetry. apply H; auto; lia.
Qed.

Lemma dyn_row_length d order w a parents prev drift noise lags : List.length (dyn_row d order w a parents prev drift noise lags) = d.
Proof. unfold dyn_row. rewrite map_length, seq_length. auto. Qed.

Lemma dyn_row_eq d r order w a drift noise lags j : topo_order w d order -> j < d ->
  let parents j := filter (fun i => qnz (w i j)) (seq 0 d) in
  let prev j := filter (fun i => qnz (a i j)) (seq 0 r) in
  let x := dyn_row d order w a parents prev drift noise lags in
  nth j x 0%Qc = (drift j + Qsum (fun k => nth k x 0 * w k j) (seq 0 d) + Qsum (fun k => nth k lags 0 * a k j) (seq 0 r) + noise j)%Qc.
Proof.
  intros [P T] Hj parents prev x.
  set (F := fun (y : nat -> Qc) j => (drift j + Qsum (fun k => y k * w k j) (parents j) + Qsum (fun k => nth k lags 0 * a k j) (prev j) + noise j)%Qc).
  set (st := fun l => fold_left (fun y j i => if i =? j then F y j else y i) l (fun _ : nat => 0%Qc)).
  assert (X : forall k, k < d -> nth k x 0%Qc = st order k).
  { intros k Hk. unfold x, dyn_row. rewrite nth_map_seq by auto. reflexivity. }
  assert (I : In j order) by (apply (Permutation_in _ (Permutation_sym P)), in_seq; lia).
  assert (ND : NoDup order) by (apply (Permutation_NoDup (Permutation_sym P)), seq_NoDup).
  apply in_split in I. destruct I as (l1 & l2 & E).
  assert (Fin : forall k l l', order = l ++ l' -> ~ In k l' -> st order k = st l k).
  { intros k l l' El N. unfold st. rewrite El, fold_left_app. apply fold_upd. auto. }
  assert (N12 : forall k, In k l1 -> k <> j /\ ~ In k l2).
  { intros k Hk. rewrite E in ND. split.
    - intros ->. apply NoDup_remove_2 in ND. apply ND, in_or_app. auto.
    - intros C. apply NoDup_remove_1 in ND. clear - ND Hk C. induction l1 as [|y l1 IH]; [contradiction|]. cbn in ND. apply NoDup_cons_iff in ND. destruct ND as [N ND]. destruct Hk as [->|Hk]; [apply N, in_or_app; auto|auto]. }
  assert (Nj : ~ In j l2) by (rewrite E in ND; apply NoDup_remove_2 in ND; intros C; apply ND, in_or_app; auto).
  rewrite (X j Hj). rewrite (Fin j (l1 ++ [j]) l2); [|rewrite E, <- app_assoc; reflexivity|exact Nj].
  unfold st at 1. rewrite fold_left_app. cbn [fold_left]. rewrite Nat.eqb_refl. fold (st l1). unfold F at 1.
  assert (S1 : Qsum (fun k => st l1 k * w k j)%Qc (parents j) = Qsum (fun k => nth k x 0 * w k j)%Qc (seq 0 d)).
  { rewrite <- (Qsum_support (fun k => (nth k x 0 * w k j)%Qc) (fun i => qnz (w i j)) d).
    - apply Qsum_ext. intros k Hk. unfold parents in Hk. apply filter_In in Hk. destruct Hk as [Hk Q]. apply in_seq in Hk. apply qnz_iff in Q. rewrite X by lia.
      assert (In k l1) by (eapply T; eauto; lia). destruct (N12 k H) as [Nk Nk2]. rewrite (Fin k l1 (j :: l2)); auto. intros [C|C]; auto.
    - intros k _ Q. assert (Z : w k j = 0%Qc). { unfold qnz in Q. destruct (Qc_eq_bool_spec (w k j) 0%Qc); [auto|discriminate]. } rewrite Z. ring. }
  assert (S2 : Qsum (fun k => nth k lags 0 * a k j)%Qc (prev j) = Qsum (fun k => nth k lags 0 * a k j)%Qc (seq 0 r)).
  { unfold prev. apply Qsum_support. intros k _ Q. assert (Z : a k j = 0%Qc). { unfold qnz in Q. destruct (Qc_eq_bool_spec (a k j) 0%Qc); [auto|discriminate]. } rewrite Z. ring. }
  rewrite S1, S2. reflexivity.
Qed.

(** ** The simulation *)
Section Simulate.
  Variables (row : nat -> list Qc -> list Qc) (d p : nat).
  Hypothesis Hrow : forall t l, List.length (row t l) = d.
  Let m := d * p.

  Fixpoint lags_at (t : nat) : list Qc := match t with O => repeat 0%Qc (p * d) | S k => firstn m (row k (lags_at k) ++ lags_at k) end.

  Lemma simulate_rows n : forall t, simulate row m n t (lags_at t) = map (fun s => (row s (lags_at s), lags_at s)) (seq t n).
  Proof. induction n as [|n IH]; intros t; cbn [simulate seq map]; auto. f_equal. apply (IH (S t)). Qed.

  Lemma simulate_all n : simulate row m n 0 (repeat 0%Qc (p * d)) = map (fun s => (row s (lags_at s), lags_at s)) (seq 0 n).
  Proof. exact (simulate_rows n 0). Qed.

  Lemma lags_length t : List.length (lags_at t) = p * d.
  Proof. induction t as [|t IH]; cbn [lags_at]; [apply repeat_length|]. rewrite firstn_length, app_length, Hrow, IH. unfold m. lia. Qed.

  Lemma firstn_nth {A} (l : list A) k i x : i < k -> nth i (firstn k l) x = nth i l x.
  Proof. revert k i. induction l as [|y l IH]; intros [|k] [|i] H; cbn; auto; try lia. apply IH. lia. Qed.

  (** Position l * d + i of the lags is what position i was l + 1 rows before. *)
  Lemma lags_nth t : forall l i, l < p -> i < d -> nth (l * d + i) (lags_at t) 0%Qc = if l <? t then nth i (row (t - l - 1) (lags_at (t - l - 1))) 0%Qc else 0%Qc.
  Proof.
    induction t as [|t IH]; intros l i Hl Hi; cbn [lags_at].
    - cbn. rewrite nth_repeat. auto.
    - rewrite firstn_nth by (unfold m; nia). destruct l as [|l].
      + cbn [Nat.mul Nat.add]. rewrite app_nth1 by (rewrite Hrow; auto). replace (S t - 0 - 1) with t by lia. reflexivity.
      + rewrite app_nth2 by (rewrite Hrow; cbn; lia). rewrite Hrow. replace (S l * d + i - d) with (l * d + i) by (cbn; lia). rewrite IH by lia.
        change (S l <? S t) with (l <? t). replace (S t - S l - 1) with (t - l - 1) by lia. reflexivity.
  Qed.
End Simulate.

Lemma last_rows_map {A} (f : nat -> A) n b : 0 < n -> last_rows n (map f (seq 0 (n + b))) = map (fun k => f (b + k)) (seq 0 n).
Proof.
  intros H. unfold last_rows. destruct (Nat.eqb_spec n 0) as [->|_]; [lia|]. rewrite map_length, seq_length. replace (n + b - n) with b by lia.
  rewrite (Nat.add_comm n b), seq_app, map_app, skipn_app, map_length, seq_length. rewrite skipn_all2 by (rewrite map_length, seq_length; auto). rewrite Nat.sub_diag. cbn [skipn app].
  replace (0 + b) with (b + 0) by lia. generalize 0 as s. clear H. induction n as [|n IH]; intros s; cbn [seq map]; auto. f_equal. replace (S (b + s)) with (b + S s) by lia. apply IH.
Qed.

(** ** The frame *)
(** The value of a cell. *)
Definition value (df : dframe) (k : nat) (c : string) : option Qc :=
  match nth_error (df_rows df) k with Some row => dget String.eqb (combine (df_cols df) row) c | None => None end.
Definition value0 (df : dframe) (k : nat) (c : string) : Qc := match value df k c with Some q => q | None => 0%Qc end.

(** The weight of an edge: nothing without an edge, one for an edge without a weight. *)
Definition effect (g : graph) (u v : string) (q : Qc) : Prop :=
  match edge_attrs g (LStr u) (LStr v) with
  | None => q = 0%Qc
  | Some a => match aget a "weight" with None => q = 1%Qc | Some w => w = ANum q end
  end.

Lemma combine_get (cols : list string) : forall (row : list Qc) i c, NoDup cols -> List.length row = List.length cols -> nth_error cols i = Some c -> dget String.eqb (combine cols row) c = Some (nth i row 0%Qc).
Proof.
  induction cols as [|x cols IH]; intros [|q row] i c ND L H; try (cbn in L; discriminate); [destruct i; discriminate|]. cbn [combine dget]. cbn in L. injection L as L. apply NoDup_cons_iff in ND. destruct ND as [N ND].
  destruct i as [|i]; cbn in H.
  - injection H as ->. unfold dget. cbn [find]. rewrite String.eqb_refl. auto.
  - assert (x <> c) by (intros ->; apply N; eapply nth_error_In; eauto). specialize (IH row i c ND L H). cbn. destruct (String.eqb_spec c x) as [->|]; [congruence|]. exact IH.
Qed.

Section Frame.
  Variables (order : qmat -> nat -> list nat) (noise : qmat) (g : graph) (n_samples burn_in : nat) (sem_type : string) (scale : Qc) (drift : option (list Qc)) (df : dframe).
  Hypothesis Horder : forall w d, acyclic (mat_edges d w) -> topo_order w d (order w d).
  Hypothesis Wg : wf g.

  Lemma node_texts : forall ns names, mapM node_text ns = Ok names -> ns = map LStr names.
  Proof.
    intros ns names H. apply mapM_ok in H. induction H as [|x y l l' E H IH]; cbn; auto. destruct x as [z|s]; cbn in E; [discriminate|]. injection E as ->. congruence.
  Qed.
  Lemma node_texts_back names : mapM node_text (map LStr names) = Ok names.
  Proof. induction names as [|x l IH]; cbn; auto. rewrite IH. auto. Qed.

  Definition drift_at (j : nat) : Qc := match drift with Some l => nth j l 0%Qc | None => 0%Qc end.

  (** Everything about an accepted call. *)
  Definition run (names intra inter : list string) : Prop :=
    nodes g = map LStr names /\ intra = ssort (filter current names) /\ inter = ssort (filter (fun s => negb (current s)) names).

  Definition intra_w (intra : list string) : qmat := fun i j => wnum g (nth i intra "") (nth j intra "").
  Definition inter_w (inter intra : list string) : qmat := fun i j => wnum g (nth i inter "") (nth j intra "").
  Definition the_row (intra inter : list string) (t : nat) (lags : list Qc) : list Qc :=
    let d := List.length intra in
    dyn_row d (order (intra_w intra) d) (intra_w intra) (inter_w inter intra)
      (fun j => filter (fun i => qnz (intra_w intra i j)) (seq 0 d)) (fun j => filter (fun i => qnz (inter_w inter intra i j)) (seq 0 (List.length inter)))
      drift_at (fun j => (scale * noise t j)%Qc) lags.

  Definition good_call (intra inter : list string) (p : nat) : Prop :=
    In sem_type ["linear-gauss"; "linear-exp"; "linear-gumbel"] /\ 0 < List.length intra /\ List.length inter = p * List.length intra /\
    acyclic (mat_edges (List.length intra) (intra_w intra)) /\ Forall (fun e => numeric (snd e) = Ok tt) (edges_data g) /\
    (0 < n_samples + burn_in -> (0 <= scale)%Qc /\ match drift with Some l => List.length intra <= List.length l | None => True end).

  Lemma frame_inv : generate_dataframe_dynamic order noise g n_samples burn_in sem_type scale drift = Ok df ->
    exists names intra inter p, run names intra inter /\ good_call intra inter p /\
      df = mkDframe (intra ++ inter) (map (fun xl => fst xl ++ snd xl) (last_rows n_samples (map (fun s => (the_row intra inter s (lags_at (the_row intra inter) (List.length intra) p s), lags_at (the_row intra inter) (List.length intra) p s)) (seq 0 (n_samples + burn_in))))).
  Proof.
    unfold generate_dataframe_dynamic. destruct (negb (smem sem_type _)) eqn:Es; [discriminate|]. apply negb_false_iff, smem_In in Es.
    destruct (mapM node_text (nodes g)) as [names|] eqn:En; [|discriminate]. cbn [bind]. destruct (mapM _ (edges_data g)) as [us|] eqn:Eu; [|discriminate]. cbn [bind].
    set (intra := ssort (filter current names)). set (inter := ssort (filter (fun s => negb (current s)) names)).
    destruct (Nat.eqb_spec (List.length intra) 0) as [|Nd]; [discriminate|].
    change (fun i j : nat => wnum g (nth i intra "") (nth j intra "")) with (intra_w intra).
    destruct (is_dag Nat.eqb (mat_edges (List.length intra) (intra_w intra))) eqn:Ed; cbn [negb]; [|discriminate].
    destruct ((0 <? n_samples + burn_in) && _) eqn:E1; [discriminate|]. destruct ((0 <? n_samples + burn_in) && qlt scale 0) eqn:E2; [discriminate|].
    set (p := List.length inter / List.length intra). destruct (Nat.eqb_spec (List.length inter) (p * List.length intra)) as [Er|]; cbn [negb]; [|discriminate].
    intros [= <-]. exists names, intra, inter, p. split; [split; auto; apply node_texts; auto|]. split.
    - split; auto. split; [lia|]. split; auto. split; [apply (is_dag_acyclic Nat.eqb Nat.eqb_spec); auto|]. split.
      + apply mapM_ok in Eu. clear - Eu. induction Eu as [|e u l l' H _ IH]; constructor; auto. destruct u. auto.
      + intros Ht. apply Nat.ltb_lt in Ht. rewrite Ht in E1, E2. cbn in E1, E2. apply qlt_false in E2. split; auto. destruct drift; auto. apply Nat.ltb_ge in E1. auto.
    - f_equal. f_equal. f_equal. apply simulate_all.
  Qed.

  Lemma frame_ok names intra inter p : run names intra inter -> good_call intra inter p -> exists df', generate_dataframe_dynamic order noise g n_samples burn_in sem_type scale drift = Ok df'.
  Proof.
    intros (En & Ei & Eo) (Hs & Hd & Hr & Ha & Hn & Ht). unfold generate_dataframe_dynamic. apply smem_In in Hs. rewrite Hs. cbn [negb]. rewrite En, node_texts_back. cbn [bind].
    assert (Eu : exists us, mapM (fun e : label * label * attrs => numeric (snd e)) (edges_data g) = Ok us).
    { clear - Hn. induction Hn as [|e l H _ (us & IH)]; cbn; eauto. rewrite H. cbn. rewrite IH. cbn. eauto. }
    destruct Eu as (us & ->). cbn [bind]. rewrite <- Ei, <- Eo. destruct (Nat.eqb_spec (List.length intra) 0) as [|_]; [lia|].
    change (fun i j : nat => wnum g (nth i intra "") (nth j intra "")) with (intra_w intra).
    apply (is_dag_acyclic Nat.eqb Nat.eqb_spec) in Ha. rewrite Ha. cbn [negb].
    assert (C1 : (0 <? n_samples + burn_in) && match drift with Some l => List.length l <? List.length intra | None => false end = false).
    { destruct (Nat.ltb_spec 0 (n_samples + burn_in)) as [L|]; auto. destruct (Ht L) as [_ H]. destruct drift; auto. cbn. apply Nat.ltb_ge. auto. }
    assert (C2 : (0 <? n_samples + burn_in) && qlt scale 0 = false).
    { destruct (Nat.ltb_spec 0 (n_samples + burn_in)) as [L|]; auto. destruct (Ht L) as [H _]. cbn. apply qlt_false. auto. }
    rewrite C1, C2. assert (Ep : List.length inter / List.length intra = p) by (rewrite Hr; apply Nat.div_mul; lia). rewrite Ep, <- Hr, Nat.eqb_refl. cbn [negb]. eauto.
  Qed.

  Lemma run_parts names intra inter : run names intra inter ->
    NoDup (intra ++ inter) /\ Permutation (map LStr (intra ++ inter)) (nodes g) /\ (forall c, In c intra -> current c = true) /\ (forall c, In c inter -> current c = false).
  Proof.
    intros (En & -> & ->). assert (ND : NoDup names) by (pose proof (proj1 Wg) as H; rewrite En in H; eapply NoDup_map_inv; eauto).
    assert (P : Permutation (ssort (filter current names) ++ ssort (filter (fun s => negb (current s)) names)) names).
    { unfold ssort. rewrite <- !isort_perm. clear. induction names as [|x l IH]; cbn; auto. destruct (current x); cbn; [constructor; auto|]. etransitivity; [symmetry; apply Permutation_middle|]. constructor. auto. }
    split; [apply (Permutation_NoDup (Permutation_sym P)); auto|]. split; [rewrite En; apply Permutation_map; auto|].
    split; intros c H; apply isort_In, filter_In in H; [tauto|apply negb_true_iff; tauto].
  Qed.

  Lemma effect_wnum u v q : Forall (fun e => numeric (snd e) = Ok tt) (edges_data g) -> effect g u v q -> q = wnum g u v.
  Proof.
    intros _. unfold effect, wnum. destruct (edge_attrs g (LStr u) (LStr v)) as [a|]; auto. destruct (aget a "weight") as [w|]; auto. intros ->. auto.
  Qed.
  Lemma wnum_effect u v : Forall (fun e => numeric (snd e) = Ok tt) (edges_data g) -> effect g u v (wnum g u v).
  Proof.
    intros H. unfold effect, wnum. destruct (edge_attrs g (LStr u) (LStr v)) as [a|] eqn:Ea; auto. apply edges_data_In in Ea; auto. rewrite Forall_forall in H. specialize (H _ Ea). cbn in H. unfold numeric in H.
    destruct (aget a "weight") as [[q| | |]|]; auto; discriminate.
  Qed.

  Section Rows.
    Variables (names intra inter : list string) (p : nat).
    Hypothesis Hrun : run names intra inter.
    Hypothesis Hgood : good_call intra inter p.
    Hypothesis Hdf : df = mkDframe (intra ++ inter) (map (fun xl => fst xl ++ snd xl) (last_rows n_samples (map (fun s => (the_row intra inter s (lags_at (the_row intra inter) (List.length intra) p s), lags_at (the_row intra inter) (List.length intra) p s)) (seq 0 (n_samples + burn_in))))).
    Let d := List.length intra.
    Let xs (s : nat) : list Qc := the_row intra inter s (lags_at (the_row intra inter) d p s).
    Let ls (s : nat) : list Qc := lags_at (the_row intra inter) d p s.

    Lemma the_row_length t l : List.length (the_row intra inter t l) = d.
    Proof. unfold the_row. cbv zeta. rewrite dyn_row_length. reflexivity. Qed.

    (** The row at position k of the frame is the one of time [start + k]. *)
    Definition start_time : nat := if n_samples =? 0 then 0 else burn_in.
    Definition row_count : nat := if n_samples =? 0 then burn_in else n_samples.

    Lemma frame_rows : df_rows df = map (fun k => xs (start_time + k) ++ ls (start_time + k)) (seq 0 row_count).
    Proof.
      rewrite Hdf. cbn [df_rows]. unfold start_time, row_count. destruct (Nat.eqb_spec n_samples 0) as [E|N].
      - rewrite E. unfold last_rows. cbn [Nat.eqb Nat.add]. rewrite map_map. reflexivity.
      - rewrite last_rows_map by lia. rewrite map_map. reflexivity.
    Qed.

    Lemma value_at k i c : k < row_count -> nth_error (intra ++ inter) i = Some c -> value df k c = Some (nth i (xs (start_time + k) ++ ls (start_time + k)) 0%Qc).
    Proof.
      intros Hk Hi. unfold value. rewrite frame_rows. rewrite nth_error_map. assert (E : nth_error (seq 0 row_count) k = Some k).
      { rewrite (nth_error_nth' _ 0) by (rewrite seq_length; auto). rewrite seq_nth by auto. auto. }
      rewrite E. cbn [option_map]. rewrite Hdf. cbn [df_cols]. apply combine_get; auto.
      - apply (run_parts _ _ _ Hrun).
      - rewrite !app_length. unfold xs, ls. rewrite the_row_length, lags_length by apply the_row_length. destruct Hgood as (_ & _ & Hr & _). rewrite Hr. unfold d. lia.
    Qed.
    Lemma value_intra k i c : k < row_count -> nth_error intra i = Some c -> value df k c = Some (nth i (xs (start_time + k)) 0%Qc).
    Proof.
      intros Hk Hi. assert (L : i < d) by (apply nth_error_Some; fold d; congruence). rewrite (value_at k i); auto; [|rewrite nth_error_app1; auto]. rewrite app_nth1 by (unfold xs; rewrite the_row_length; auto). auto.
    Qed.
    Lemma value_inter k i c : k < row_count -> nth_error inter i = Some c -> value df k c = Some (nth i (ls (start_time + k)) 0%Qc).
    Proof.
      intros Hk Hi. rewrite (value_at k (d + i)); auto.
      - rewrite app_nth2 by (unfold xs; rewrite the_row_length; lia). unfold xs at 1. rewrite the_row_length. replace (d + i - d) with i by lia. auto.
      - rewrite nth_error_app2 by (unfold d; lia). fold d. replace (d + i - d) with i by lia. auto.
    Qed.

    Lemma Qsum_nth (f : string -> Qc) l : Qsum f l = Qsum (fun i => f (nth i l "")) (seq 0 (List.length l)).
    Proof.
      induction l as [|x l IH]; cbn [List.length]; auto. rewrite <- cons_seq, !Qsum_cons, <- seq_shift, Qsum_map, IH. reflexivity.
    Qed.

    Lemma the_row_eq s lags j : j < d -> nth j (the_row intra inter s lags) 0%Qc =
      (drift_at j + Qsum (fun k => nth k (the_row intra inter s lags) 0 * intra_w intra k j) (seq 0 d) + Qsum (fun k => nth k lags 0 * inter_w inter intra k j) (seq 0 (List.length inter)) + scale * noise s j)%Qc.
    Proof.
      intros L. destruct Hgood as (_ & _ & _ & Ha & _).
      exact (dyn_row_eq d (List.length inter) (order (intra_w intra) d) (intra_w intra) (inter_w inter intra) drift_at (fun j => (scale * noise s j)%Qc) lags j (Horder _ _ Ha) L).
    Qed.

    Lemma frame_equation (wt : string -> string -> Qc) k j v : (forall u v, effect g u v (wt u v)) -> k < row_count -> nth_error intra j = Some v ->
      value df k v = Some (drift_at j + Qsum (fun u => value0 df k u * wt u v) (df_cols df) + scale * noise (start_time + k)%nat j)%Qc.
    Proof.
      intros Hw Hk Hj. destruct Hgood as (_ & _ & Hr & Ha & Hn & _). assert (L : j < d) by (apply nth_error_Some; fold d; congruence).
      rewrite (value_intra k j v Hk Hj). f_equal. unfold xs. rewrite (the_row_eq (start_time + k) _ j L).
      assert (Ec : df_cols df = intra ++ inter) by (rewrite Hdf; reflexivity). rewrite Ec, Qsum_app. assert (Ev : nth j intra "" = v) by (apply nth_error_nth; auto).
      rewrite (Qsum_nth _ intra), (Qsum_nth _ inter). fold d. rewrite !Qcplus_assoc. f_equal. f_equal; [f_equal|].
      - apply Qsum_ext. intros i Hi. apply in_seq in Hi. f_equal.
        + unfold value0. rewrite (value_intra k i); auto. rewrite (nth_error_nth' intra "") by (fold d; lia). auto.
        + unfold intra_w. rewrite Ev. symmetry. apply effect_wnum; auto.
      - apply Qsum_ext. intros i Hi. apply in_seq in Hi. f_equal.
        + unfold value0. rewrite (value_inter k i); auto. rewrite (nth_error_nth' inter "") by lia. auto.
        + unfold inter_w. rewrite Ev. symmetry. apply effect_wnum; auto.
    Qed.

    (** The lagged column at position l * d + i holds the current column at position i of l + 1 rows before. *)
    Lemma frame_lag k l i c v : l < p -> i < d -> nth_error intra i = Some v -> nth_error inter (l * d + i) = Some c -> k + l + 1 < row_count -> value df (k + l + 1) c = value df k v.
    Proof.
      intros Hl Hi Ev Ec Hk. rewrite (value_inter (k + l + 1) (l * d + i) c) by auto. rewrite (value_intra k i v) by (auto; lia). f_equal. unfold ls. rewrite lags_nth by (auto; apply the_row_length).
      destruct (Nat.ltb_spec l (start_time + (k + l + 1))) as [_|C]; [|lia]. replace (start_time + (k + l + 1) - l - 1) with (start_time + k) by lia. reflexivity.
    Qed.
  End Rows.
End Frame.
