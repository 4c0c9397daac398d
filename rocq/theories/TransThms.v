(** * TransThms: specification of the time series transformer and its theorems. *)
From Coq Require Import List Bool Arith ZArith Lia String QArith Qcanon Sorting.Sorted.
From Verif Require Import Base Names TransModel TransProofs.
Import ListNotations.
Local Open Scope string_scope.
Local Open Scope list_scope.
Local Open Scope nat_scope.

(** ** Specification *)

(** A data frame: distinct column names and a value for each column in every row. *)
Definition well_formed (t : series) : Prop :=
  NoDup (col_names t) /\ forall r, In r (ts_rows t) -> List.length (snd r) = List.length (col_names t).

(** Input that the transformer accepts. *)
Definition acceptable (columns : list string) (l : list series) : Prop :=
  l <> [] /\ (forall t t', In t l -> In t' l -> ts_cols t = ts_cols t') /\
  forall t, In t l -> (forall c, In c (ts_cols t) -> snd c <> DObject) /\ ts_int_index t = true /\
    StronglySorted Z.le (map fst (ts_rows t)) /\ incl columns (col_names t).

Definition times (t : series) : list Z := map fst (ts_rows t).
Definition strict (t : series) : Prop := StronglySorted Z.lt (times t).

(** The value of variable [c] at time [time]. *)
Definition value (t : series) (time : Z) (c : string) : option Qc :=
  match find (fun r => (fst r =? time)%Z) (ts_rows t) with
  | Some r => dget String.eqb (combine (col_names t) (snd r)) c
  | None => None
  end.

(** The times of a series with [p] predecessors, and all of them, series by series. *)
Definition complete (p : nat) (t : series) : list Z :=
  filter (fun time => forallb (fun k => existsb (Z.eqb (time - Z.of_nat k)) (times t)) (seq 0 (S p))) (times t).
Definition expected (p : nat) (l : list series) : list (series * Z) :=
  flat_map (fun t => map (fun time => (t, time)) (complete p t)) l.

(** What [transform] returns for the arrays X and Xlags. *)
Definition returned (d : ddt) (columns : list string) (X Y : list (list Qc)) : output :=
  if d_return_df d then Frame (lag_columns (d_p d) columns) (zip_rows X Y) else Arrays X Y.

(** ** Validation *)
Lemma dtype_eqb_spec a b : dtype_eqb a b = true <-> a = b.
Proof. destruct a, b; cbn; split; congruence. Qed.

Lemma col_list_eqb_spec a b : col_list_eqb a b = true <-> a = b.
Proof.
  revert b. induction a as [|[x dx] a IH]; intros [|[y dy] b]; cbn; try (split; congruence).
  rewrite !andb_true_iff, IH, String.eqb_eq, dtype_eqb_spec. split; [intros [[-> ->] ->]; auto|intros [= -> -> ->]; auto].
Qed.

Lemma increasing_spec l : increasing l = true <-> StronglySorted Z.le l.
Proof.
  induction l as [|a [|b l] IH].
  - split; [constructor|auto].
  - split; [repeat constructor|auto].
  - change (increasing (a :: b :: l)) with ((a <=? b)%Z && increasing (b :: l)).
    rewrite andb_true_iff, IH, Z.leb_le. split.
    + intros [H S]. constructor; auto. constructor; auto. inversion S as [|? ? _ F]; subst.
      eapply Forall_impl; [|exact F]. cbn. lia.
    + intros S. inversion S as [|? ? S' F]; subst. split; auto. inversion F; auto.
Qed.

Lemma check_one_ok cs first t : check_one (Some cs) first t = Ok tt <->
  (forall c, In c (ts_cols t) -> snd c <> DObject) /\ ts_cols first = ts_cols t /\
  StronglySorted Z.le (map fst (ts_rows t)) /\ ts_int_index t = true /\ incl cs (col_names t).
Proof.
  unfold check_one. destruct (existsb _ (ts_cols t)) eqn:E1.
  { split; [discriminate|]. intros (H & _). exfalso. apply existsb_exists in E1. destruct E1 as (c & Hc & E).
    apply dtype_eqb_spec in E. apply (H c); auto. }
  assert (N : forall c, In c (ts_cols t) -> snd c <> DObject).
  { intros c Hc E. apply not_true_iff_false in E1. apply E1. apply existsb_exists. exists c. split; auto. rewrite E; auto. }
  destruct (col_list_eqb (ts_cols first) (ts_cols t)) eqn:E2; cbn [negb].
  2:{ split; [discriminate|]. intros (_ & H & _). apply col_list_eqb_spec in H. congruence. }
  apply col_list_eqb_spec in E2.
  destruct (increasing (map fst (ts_rows t))) eqn:E3; cbn [negb].
  2:{ split; [discriminate|]. intros (_ & _ & H & _). apply increasing_spec in H. congruence. }
  apply increasing_spec in E3.
  destruct (ts_int_index t) eqn:E4; cbn [negb]; [|split; [discriminate|intros (_ & _ & _ & H & _); discriminate]].
  destruct (forallb (fun c => smem c (col_names t)) cs) eqn:E5.
  - split; auto. intros _. repeat (split; [assumption || reflexivity|]). intros c Hc.
    rewrite forallb_forall in E5. apply (memb_In _ String.eqb_spec). apply E5; auto.
  - split; [discriminate|]. intros (_ & _ & _ & _ & H). exfalso. apply not_true_iff_false in E5. apply E5.
    apply forallb_forall. intros c Hc. apply (memb_In _ String.eqb_spec). apply H; auto.
Qed.

Lemma mapM_tt {A} (f : A -> res unit) l : (exists u, mapM f l = Ok u) <-> forall x, In x l -> f x = Ok tt.
Proof.
  induction l as [|x l IH]; cbn [mapM].
  - split; eauto. intros _ x [].
  - split.
    + intros [u E]. destruct (f x) as [[]|] eqn:Ex; [|discriminate]. cbn [bind] in E.
      destruct (mapM f l) as [us|] eqn:El; [|discriminate]. intros y [<-|Hy]; auto. apply IH; eauto.
    + intros H. rewrite (H x) by (left; auto). cbn [bind]. destruct (proj2 IH) as [u Eu]; [intros; apply H; right; auto|].
      rewrite Eu. cbn. eauto.
Qed.

Lemma check_input_ok cs l : check_input (Some cs) l = Ok tt <-> acceptable cs l.
Proof.
  unfold check_input, acceptable. destruct l as [|first l].
  { split; [discriminate|]. intros [H _]. congruence. }
  assert (E : (do _ <- mapM (check_one (Some cs) first) (first :: l); Ok tt) = Ok tt <->
              forall t, In t (first :: l) -> check_one (Some cs) first t = Ok tt).
  { rewrite <- mapM_tt. destruct (mapM _ _) as [u|]; cbn [bind]; split; eauto; try discriminate. intros [? ?]; discriminate. }
  rewrite E. split.
  - intros H. split; [discriminate|]. split.
    + intros t t' Ht Ht'. pose proof (proj1 (check_one_ok _ _ _) (H t Ht)) as (_ & E1 & _).
      pose proof (proj1 (check_one_ok _ _ _) (H t' Ht')) as (_ & E2 & _). congruence.
    + intros t Ht. pose proof (proj1 (check_one_ok _ _ _) (H t Ht)) as (A & _ & B & C & D). auto.
  - intros (_ & Same & H) t Ht. destruct (H t Ht) as (A & B & C & D). apply check_one_ok.
    split; [auto|]. split; [apply Same; auto; left; auto|]. auto.
Qed.

(** ** Picking columns *)
Lemma pick_value names row wanted : NoDup names -> List.length row = List.length names -> incl wanted names ->
  map Some (pick names row wanted) = map (dget String.eqb (combine names row)) wanted.
Proof.
  intros ND L I. unfold pick. induction wanted as [|c wanted IH]; auto. cbn [flat_map map]. rewrite map_app, IH by (intros x Hx; apply I; right; auto).
  assert (Hc : In c names) by (apply I; left; auto). clear IH I. change (?a :: ?b) with ([a] ++ b). f_equal.
  revert row L. induction names as [|n names IH]; intros [|x row] L; cbn in L; try lia; [destruct Hc|].
  inversion ND as [|? ? Hn ND']; subst. cbn [combine filter fst dget]. rewrite (String.eqb_sym c n).
  destruct (String.eqb_spec n c) as [->|Ne].
  - cbn [map snd]. f_equal.
    replace (filter (fun nx => String.eqb c (fst nx)) (combine names row)) with (@nil (string * Qc)); auto.
    symmetry. assert (G : forall (l : list string) (r : list Qc), ~ In c l -> filter (fun nx => String.eqb c (fst nx)) (combine l r) = []).
    { clear. induction l as [|a l IH]; intros [|b r] H; auto. cbn. destruct (String.eqb_spec c a); [subst; exfalso; apply H; left; auto|].
      apply IH. intros T; apply H; right; auto. }
    apply G; auto.
  - destruct Hc as [->|Hc]; [congruence|]. apply IH; auto; lia.
Qed.

Lemma find_time (rows : list (Z * list Qc)) r : NoDup (map fst rows) -> In r rows -> find (fun x => (fst x =? fst r)%Z) rows = Some r.
Proof.
  induction rows as [|a rows IH]; intros ND H; [destruct H|]. inversion ND as [|? ? Hn ND']; subst. cbn [find].
  destruct (Z.eqb_spec (fst a) (fst r)) as [E|E].
  - destruct H as [->|H]; auto. exfalso. apply Hn. rewrite E. apply in_map; auto.
  - destruct H as [->|H]; [congruence|]. auto.
Qed.

Lemma strict_NoDup l : StronglySorted Z.lt l -> NoDup l.
Proof.
  induction 1 as [|a l H IH F]; constructor; auto. intros N. rewrite Forall_forall in F. specialize (F a N). lia.
Qed.

Lemma value_row t columns r : well_formed t -> strict t -> incl columns (col_names t) -> In r (ts_rows t) ->
  map Some (pick (col_names t) (snd r) columns) = map (value t (fst r)) columns.
Proof.
  intros [ND L] S I Hr. rewrite pick_value; auto. apply map_ext. intros c. unfold value.
  rewrite find_time; auto. apply strict_NoDup. exact S.
Qed.

(** ** Runs of strictly increasing times *)
Lemma strict_nth_lt (rows : list (Z * list Qc)) : StronglySorted Z.lt (map fst rows) ->
  forall i j d, i < j -> j < List.length rows -> (fst (nth i rows d) < fst (nth j rows d))%Z.
Proof.
  induction rows as [|a rows IH]; cbn [map]; intros S i j d Hi Hj; cbn in Hj; [lia|].
  inversion S as [|? ? S' F]; subst. rewrite Forall_forall in F. destruct i as [|i], j as [|j]; try lia; cbn [nth].
  - apply F, in_map, nth_In. lia.
  - apply IH; auto; lia.
Qed.

Lemma strict_app_l (a b : list Z) : StronglySorted Z.lt (a ++ b) -> StronglySorted Z.lt a.
Proof.
  induction a as [|x a IH]; cbn; intros H; constructor; inversion H as [|? ? H' F]; subst; auto.
  rewrite Forall_forall in *. intros y Hy. apply F, in_or_app; auto.
Qed.
Lemma strict_app_r (a b : list Z) : StronglySorted Z.lt (a ++ b) -> StronglySorted Z.lt b.
Proof. induction a as [|x a IH]; cbn; auto. intros H; inversion H; auto. Qed.

Lemma run_segment rows l1 run l2 : runs rows = l1 ++ run :: l2 -> rows = List.concat l1 ++ run ++ List.concat l2.
Proof. intros E. rewrite <- (runs_concat rows), E, concat_app. reflexivity. Qed.

Lemma run_consecutive rows run : StronglySorted Z.lt (map fst rows) -> In run (runs rows) ->
  forall i d, i < List.length run -> fst (nth i run d) = (fst (nth 0 run d) + Z.of_nat i)%Z.
Proof.
  intros S H. pose proof (runs_ok rows run H) as OK. apply in_split in H. destruct H as (l1 & l2 & E).
  apply run_segment in E. rewrite E, !map_app in S. apply strict_app_r, strict_app_l in S.
  intros i d. induction i as [|i IH]; intros Hi; [lia|].
  specialize (OK i d Hi). pose proof (strict_nth_lt run S i (Datatypes.S i) d ltac:(lia) Hi). rewrite IH in * by lia. lia.
Qed.

Lemma run_start rows : StronglySorted Z.lt (map fst rows) -> forall l1 h x l2, runs rows = l1 ++ (h :: x) :: l2 ->
  ~ In (fst h - 1)%Z (map fst rows).
Proof.
  induction rows as [|a [|b r] IH]; intros S l1 h x l2 E.
  - intros [].
  - cbn in E. destruct l1 as [|y l1]; [|destruct l1; discriminate]. injection E as E0 _ _. subst h. intros [T|[]]. lia.
  - assert (S' : StronglySorted Z.lt (map fst (b :: r))) by (cbn [map] in *; inversion S; auto).
    specialize (IH S').
    assert (Hab : forall t, In t (map fst (b :: r)) -> (fst a < t)%Z).
    { inversion S as [|? ? _ F]; subst. rewrite Forall_forall in F. exact F. }
    rewrite runs_cons2 in E. destruct (fst b - fst a >? 1)%Z eqn:J.
    + rewrite Z.gtb_ltb, Z.ltb_lt in J. destruct l1 as [|y l1]; injection E as E0 E.
      * subst h. intros [T|T]; [lia|]. apply Hab in T. lia.
      * change (runs (b :: r) = l1 ++ (h :: x) :: l2) in E. specialize (IH l1 h x l2 E). intros [T|T]; auto.
        assert (Hh : In (fst h) (map fst (b :: r))).
        { rewrite (run_segment _ _ _ _ E), !map_app. apply in_or_app. right. left. auto. }
        destruct Hh as [Hh|Hh]; [lia|]. inversion S' as [|? ? _ F]; subst. rewrite Forall_forall in F. specialize (F _ Hh). cbn in F. lia.
    + destruct (runs_hd b r) as (y & ys & Er). rewrite Er in E. destruct l1 as [|w l1]; injection E as E0 E.
      * subst h. intros [T|T]; [lia|]. apply Hab in T. lia.
      * assert (Er' : runs (b :: r) = ((b :: y) :: l1) ++ (h :: x) :: l2) by (rewrite Er, E; auto).
        specialize (IH _ _ _ _ Er'). intros [T|T]; auto.
        assert (Hh : In (fst h) (map fst r)).
        { pose proof (run_segment _ _ _ _ Er') as Es. cbn [List.concat app] in Es. injection Es as Es.
          rewrite Es, !map_app. apply in_or_app. right. left. auto. }
        inversion S' as [|? ? _ F]; subst. rewrite Forall_forall in F. specialize (F _ Hh). specialize (Hab (fst b) (or_introl eq_refl)). lia.
Qed.

Lemma filter_split {A} (P : A -> bool) p l d : (forall i, i < p -> i < List.length l -> P (nth i l d) = false) ->
  (forall i, p <= i -> i < List.length l -> P (nth i l d) = true) -> filter P l = skipn p l.
Proof.
  revert p. induction l as [|a l IH]; intros p H1 H2; [rewrite skipn_nil; auto|]. cbn [filter]. destruct p as [|p]; cbn [skipn].
  - pose proof (H2 0 ltac:(lia) ltac:(cbn; lia)) as E0. cbn in E0. rewrite E0. f_equal. rewrite (IH 0); auto.
    + intros; lia.
    + intros i _ Hi. apply (H2 (S i)); cbn; lia.
  - pose proof (H1 0 ltac:(lia) ltac:(cbn; lia)) as E0. cbn in E0. rewrite E0. apply IH.
    + intros i Hi Hl. apply (H1 (S i)); cbn; lia.
    + intros i Hi Hl. apply (H2 (S i)); cbn; lia.
Qed.

Lemma complete_runs p t : strict t -> complete p t = flat_map (fun run => map fst (skipn p run)) (runs (ts_rows t)).
Proof.
  intros S. unfold complete. unfold strict, times in *. set (rows := ts_rows t) in *. clearbody rows.
  set (P := fun time => forallb (fun k => existsb (Z.eqb (time - Z.of_nat k)) (map fst rows)) (seq 0 (Datatypes.S p))).
  assert (G : forall l2 l1, runs rows = l1 ++ l2 -> filter P (map fst (List.concat l2)) = flat_map (fun run => map fst (skipn p run)) l2).
  { induction l2 as [|run l2 IH]; intros l1 E; auto. cbn [List.concat flat_map]. rewrite map_app, filter_app.
    rewrite (IH (l1 ++ [run])) by (rewrite E, <- app_assoc; auto). f_equal. clear IH.
    assert (Hin : In run (runs rows)) by (rewrite E; apply in_or_app; right; left; auto).
    pose proof (run_consecutive rows run S Hin) as C. pose proof (run_segment _ _ _ _ E) as Seg.
    rewrite <- skipn_map. apply (filter_split _ _ _ (fst (0%Z, @nil Qc))).
    - intros i Hi Hl. rewrite map_length in Hl. rewrite (map_nth fst). unfold P. apply not_true_iff_false. rewrite forallb_forall.
      intros H. specialize (H (Datatypes.S i) ltac:(apply in_seq; lia)). apply existsb_exists in H. destruct H as (u & Hu & Eu).
      apply Z.eqb_eq in Eu. rewrite C in Eu by auto. destruct run as [|h x]; [cbn in Hl; lia|]. cbn [nth] in Eu.
      apply (run_start rows S l1 h x l2 E). replace (fst h - 1)%Z with u by lia. auto.
    - intros i Hi Hl. rewrite map_length in Hl. rewrite (map_nth fst). unfold P. apply forallb_forall. intros k Hk. apply in_seq in Hk.
      apply existsb_exists. exists (fst (nth (i - k) run (0%Z, []))). split.
      + rewrite Seg, !map_app. apply in_or_app. right. apply in_or_app. left. apply in_map, nth_In. lia.
      + apply Z.eqb_eq. rewrite (C i) by auto. rewrite (C (i - k)) by lia. lia. }
  specialize (G (runs rows) [] eq_refl). rewrite runs_concat in G. exact G.
Qed.

(** ** The arrays *)
Definition picked (columns : list string) (t : series) (run : list (Z * list Qc)) : list (list Qc) :=
  map (fun r => pick (col_names t) (snd r) columns) run.

Lemma transform_arrays d columns l : d_columns d = Some columns -> 1 <= d_p d -> acceptable columns l ->
  ddt_transform d l = Ok (returned d columns
    (flat_map (fun t => flat_map (fun run => x_of (d_p d) (picked columns t run)) (runs (ts_rows t))) l)
    (flat_map (fun t => flat_map (fun run => y_of (d_p d) (picked columns t run)) (runs (ts_rows t))) l)).
Proof.
  intros Dc Hp A. unfold ddt_transform. rewrite Dc. rewrite (proj2 (check_input_ok columns l) A). cbn [bind].
  assert (Ec : forall l', cut (map (pick_series columns) l') = flat_map (fun t => map (picked columns t) (runs (ts_rows t))) l').
  { intros l'. unfold cut. induction l' as [|t l' IH]; auto. cbn [map flat_map]. rewrite IH. f_equal.
    rewrite cut_one_runs. unfold pick_series. rewrite (runs_map (fun v => pick (col_names t) v columns)).
    rewrite map_map. apply map_ext. intros run. unfold picked. rewrite map_map. auto. }
  rewrite Ec. rewrite convert_ok; auto.
  - cbn [bind fst snd].
    assert (Ef : forall (f : list (list Qc) -> list (list Qc)) l', flat_map f (flat_map (fun t => map (picked columns t) (runs (ts_rows t))) l') =
       flat_map (fun t => flat_map (fun run => f (picked columns t run)) (runs (ts_rows t))) l').
    { intros f l'. induction l' as [|t l' IH]; auto. cbn [flat_map]. rewrite flat_map_app, IH. f_equal.
      rewrite !flat_map_concat_map, map_map. auto. }
    rewrite !Ef. unfold returned. destruct (d_return_df d); reflexivity.
  - destruct A as (N & _). destruct l as [|t l]; [congruence|]. cbn [flat_map]. pose proof (runs_ne (ts_rows t)).
    destruct (runs (ts_rows t)); [congruence|discriminate].
Qed.

Lemma Forall2_flat_map {A B C} (R : B -> C -> Prop) (f : A -> list B) (g : A -> list C) l :
  (forall x, In x l -> Forall2 R (f x) (g x)) -> Forall2 R (flat_map f l) (flat_map g l).
Proof.
  induction l as [|x l IH]; intros H; cbn; [constructor|]. apply Forall2_app; [apply H; left; auto|apply IH; intros; apply H; right; auto].
Qed.

Lemma Forall2_maps {A B C} (R : B -> C -> Prop) (f : A -> B) (g : A -> C) l :
  (forall x, In x l -> R (f x) (g x)) -> Forall2 R (map f l) (map g l).
Proof. induction l as [|x l IH]; intros H; constructor; [apply H; left; auto|apply IH; intros; apply H; right; auto]. Qed.

Lemma skipn_as_map {A} p (l : list A) d : skipn p l = map (fun j => nth (p + j) l d) (seq 0 (List.length l - p)).
Proof.
  apply (list_ext _ _ d); [rewrite skipn_length, map_length, seq_length; auto|].
  intros i Hi. rewrite skipn_length in Hi. rewrite nth_skipn, nth_seq_map; auto.
Qed.

Lemma picked_nth columns t run i : i < List.length run ->
  nth i (picked columns t run) [] = pick (col_names t) (snd (nth i run (0%Z, []))) columns.
Proof.
  intros H. unfold picked. rewrite (nth_indep _ [] (pick (col_names t) (snd (0%Z, [])) columns)) by (rewrite map_length; auto).
  rewrite (map_nth (fun r => pick (col_names t) (snd r) columns)). auto.
Qed.

Lemma map_Some_flat_map {A B} (f : A -> list B) l : map Some (flat_map f l) = flat_map (fun x => map Some (f x)) l.
Proof. induction l; cbn; auto. rewrite map_app. f_equal; auto. Qed.

Lemma flat_map_ext_in' {A B} (f g : A -> list B) l : (forall x, In x l -> f x = g x) -> flat_map f l = flat_map g l.
Proof. induction l; cbn; intros H; auto. rewrite (H a) by auto. f_equal. auto. Qed.

Theorem rows_aligned d columns l : d_columns d = Some columns -> 1 <= d_p d -> acceptable columns l ->
  (forall t, In t l -> well_formed t /\ strict t) ->
  exists X Y, ddt_transform d l = Ok (returned d columns X Y) /\
    Forall2 (fun st row => map Some row = map (value (fst st) (snd st)) columns) (expected (d_p d) l) X /\
    Forall2 (fun st row => map Some row =
       flat_map (fun k => map (value (fst st) (snd st - Z.of_nat k)) columns) (seq 1 (d_p d))) (expected (d_p d) l) Y.
Proof.
  intros Dc Hp A W. do 2 eexists. split; [apply transform_arrays; eauto|].
  assert (Ex : expected (d_p d) l = flat_map (fun t => flat_map (fun run =>
       map (fun j => (t, fst (nth (d_p d + j) run (0%Z, [])))) (seq 0 (List.length run - d_p d))) (runs (ts_rows t))) l).
  { unfold expected. apply flat_map_ext_in'. intros t Ht. rewrite complete_runs by (apply W; auto).
    rewrite !flat_map_concat_map, concat_map, map_map. f_equal. apply map_ext. intros run.
    rewrite (skipn_as_map _ run (0%Z, [])), !map_map. auto. }
  rewrite Ex.
  assert (Inr : forall t run i, In run (runs (ts_rows t)) -> i < List.length run -> In (nth i run (0%Z, [])) (ts_rows t)).
  { intros t run i Hr Hi. apply in_split in Hr. destruct Hr as (l1 & l2 & E). rewrite (run_segment _ _ _ _ E).
    apply in_or_app. right. apply in_or_app. left. apply nth_In; auto. }
  assert (Pl : forall t run, List.length (picked columns t run) = List.length run) by (intros; apply map_length).
  split; apply Forall2_flat_map; intros t Ht; apply Forall2_flat_map; intros run Hr; destruct (W t Ht) as [Wt St];
    (assert (I : incl columns (col_names t)) by (destruct A as (_ & _ & A); apply (A t Ht))).
  - unfold x_of. rewrite Pl. apply Forall2_maps. intros j Hj. apply in_seq in Hj. cbn [fst snd].
    rewrite picked_nth by lia. apply value_row; auto. apply Inr; auto. lia.
  - unfold y_of. rewrite Pl. apply Forall2_maps. intros j Hj. apply in_seq in Hj. cbn [fst snd].
    rewrite map_Some_flat_map. apply flat_map_ext_in'. intros k Hk. apply in_seq in Hk.
    rewrite picked_nth by lia. rewrite (value_row t columns); auto; [|apply Inr; auto; lia].
    apply map_ext. intros c. f_equal.
    pose proof (run_consecutive _ _ St Hr) as C. rewrite (C (d_p d + j - k)) by lia. rewrite (C (d_p d + j)) by lia. lia.
Qed.

(** ** The returned data frame, by column name *)
Lemma lag_columns_NoDup p columns : NoDup columns -> NoDup (lag_columns p columns).
Proof.
  intros ND.
  assert (E : lag_columns p columns = flat_map (fun k => map (fun c => lag_name c k) columns) (seq 0 (S p))) by reflexivity.
  rewrite E. clear E. generalize 0 (S p). intros s n. revert s. induction n as [|n IH]; intros s; [constructor|]. cbn [seq flat_map].
  assert (App : forall (a b : list string), NoDup a -> NoDup b -> (forall x, In x a -> ~ In x b) -> NoDup (a ++ b)).
  { clear. induction a as [|x a IH]; cbn; auto. intros b Ha Hb H. inversion Ha; subst. constructor.
    - rewrite in_app_iff. intros [T|T]; auto. apply (H x); auto.
    - apply IH; auto. }
  apply App; auto.
  - clear -ND. induction ND as [|c l H ND IH]; constructor; auto. intros T. apply in_map_iff in T. destruct T as (c' & E & Hc').
    apply lag_name_inj in E. destruct E as [-> _]. auto.
  - intros x Hx Hx'. apply in_map_iff in Hx. destruct Hx as (c & <- & _). apply in_flat_map in Hx'. destruct Hx' as (k & Hk & Hx').
    apply in_map_iff in Hx'. destruct Hx' as (c' & E & _). apply lag_name_inj in E. destruct E as [_ ->]. apply in_seq in Hk. lia.
Qed.

Lemma dget_at names (row : list Qc) i c v : NoDup names -> nth_error names i = Some c -> nth_error row i = Some v ->
  dget String.eqb (combine names row) c = Some v.
Proof.
  revert row i. induction names as [|n names IH]; intros row i ND Hc Hv; [destruct i; discriminate|].
  destruct row as [|x row]; [destruct i; discriminate|]. inversion ND; subst. cbn [combine dget fst]. destruct i as [|i]; cbn in Hc, Hv.
  - injection Hc as ->. injection Hv as ->. rewrite String.eqb_refl. auto.
  - destruct (String.eqb_spec c n) as [->|Ne]; [exfalso; apply H1; eapply nth_error_In; eauto|]. eauto.
Qed.

Lemma lag_position p columns i k c : nth_error columns i = Some c -> k <= p ->
  nth_error (lag_columns p columns) (k * List.length columns + i) = Some (lag_name c k).
Proof.
  intros Hc Hk.
  assert (E : lag_columns p columns = flat_map (fun k => map (fun c => lag_name c k) columns) (seq 0 (S p))) by reflexivity.
  rewrite E. assert (G : forall n s k, k < n -> nth_error (flat_map (fun k => map (fun c => lag_name c k) columns) (seq s n)) (k * List.length columns + i) = Some (lag_name c (s + k))).
  { clear -Hc. induction n as [|n IH]; intros s k Hk; [lia|]. cbn [seq flat_map].
    assert (Hi : i < List.length columns) by (apply nth_error_Some; congruence). destruct k as [|k].
    - rewrite nth_error_app1 by (rewrite map_length; lia). rewrite Nat.add_0_r. cbn [Nat.mul Nat.add]. rewrite nth_error_map, Hc. auto.
    - rewrite nth_error_app2 by (rewrite map_length; lia). rewrite map_length.
      replace (S k * List.length columns + i - List.length columns) with (k * List.length columns + i) by lia.
      rewrite IH by lia. do 2 f_equal. lia. }
  exact (G (S p) 0 k ltac:(lia)).
Qed.

Lemma block_position {A} (f : nat -> list A) n s k i d v : (forall k, List.length (f k) = d) -> k < n -> nth_error (f (s + k)) i = Some v ->
  nth_error (flat_map f (seq s n)) (k * d + i) = Some v.
Proof.
  intros L. revert s k. induction n as [|n IH]; intros s k Hk E; [lia|]. cbn [seq flat_map].
  assert (Hi : i < d) by (rewrite <- (L (s + k)); apply nth_error_Some; congruence). destruct k as [|k].
  - rewrite nth_error_app1 by (rewrite L; lia). rewrite Nat.add_0_r in E. auto.
  - rewrite nth_error_app2 by (rewrite L; lia). rewrite L. replace (S k * d + i - d) with (k * d + i) by lia.
    apply IH; [lia|]. rewrite <- E. f_equal. f_equal. lia.
Qed.

Lemma zip_rows_app {A B} (R S' : B -> list A -> Prop) (l : list B) X Y : Forall2 R l X -> Forall2 S' l Y ->
  Forall2 (fun b row => exists x y, row = x ++ y /\ R b x /\ S' b y) l (zip_rows X Y).
Proof.
  intros H. revert Y. induction H as [|b x l X Hb H IH]; intros Y HY; inversion HY; subst; cbn; constructor; eauto.
Qed.

Lemma Forall2_impl {A B} (R S' : A -> B -> Prop) l m : (forall a b, R a b -> S' a b) -> Forall2 R l m -> Forall2 S' l m.
Proof. intros H. induction 1; constructor; auto. Qed.

Theorem frame_aligned d columns l : d_columns d = Some columns -> d_return_df d = true -> NoDup columns -> 1 <= d_p d -> acceptable columns l ->
  (forall t, In t l -> well_formed t /\ strict t) ->
  exists cols rows, ddt_transform d l = Ok (Frame cols rows) /\ NoDup cols /\
    (forall n, In n cols <-> exists c k, In c columns /\ k <= d_p d /\ n = lag_name c k) /\
    Forall2 (fun st row => forall c k, In c columns -> k <= d_p d ->
       dget String.eqb (combine cols row) (lag_name c k) = value (fst st) (snd st - Z.of_nat k) c) (expected (d_p d) l) rows.
Proof.
  intros Dc Rd ND Hp A W. destruct (rows_aligned d columns l Dc Hp A W) as (X & Y & E & FX & FY).
  unfold returned in E. rewrite Rd in E. do 2 eexists. split; [exact E|]. split; [apply lag_columns_NoDup; auto|].
  assert (El : lag_columns (d_p d) columns = flat_map (fun k => map (fun c => lag_name c k) columns) (seq 0 (S (d_p d)))) by reflexivity.
  split.
  { intros n. rewrite El, in_flat_map. split.
    - intros (k & Hk & Hn). apply in_seq in Hk. apply in_map_iff in Hn. destruct Hn as (c & <- & Hc). exists c, k. split; auto. split; auto; lia.
    - intros (c & k & Hc & Hk & ->). exists k. split; [apply in_seq; lia|]. apply in_map_iff. eauto. }
  pose proof (zip_rows_app _ _ _ _ _ FX FY) as F. eapply Forall2_impl; [|exact F]. clear F FX FY E El X Y.
  intros [t time] row (x & y & -> & Ex & Ey) c k Hc Hk. cbn [fst snd] in *.
  destruct (In_nth_error columns c Hc) as (i & Hi).
  pose proof (lag_position (d_p d) columns i k c Hi Hk) as Hn.
  (* the row as one list of options *)
  assert (Er : map Some (x ++ y) = flat_map (fun k => map (value t (time - Z.of_nat k)) columns) (seq 0 (S (d_p d)))).
  { rewrite map_app, Ex, Ey. cbn [seq flat_map]. f_equal. apply map_ext. intros. f_equal. lia. }
  assert (Hv : nth_error (map Some (x ++ y)) (k * List.length columns + i) = Some (value t (time - Z.of_nat k) c)).
  { rewrite Er. apply block_position; [intros; apply map_length|lia|]. rewrite nth_error_map, Hi. auto. }
  rewrite nth_error_map in Hv. destruct (nth_error (x ++ y) (k * List.length columns + i)) as [v|] eqn:Ev; [|discriminate].
  cbn in Hv. injection Hv as Hv. rewrite <- Hv. eapply dget_at; eauto. apply lag_columns_NoDup; auto.
Qed.

(** ** Gaps: any accepted index, repeated times included *)
Theorem no_gap d columns l : d_columns d = Some columns -> 1 <= d_p d -> acceptable columns l ->
  exists X Y, ddt_transform d l = Ok (returned d columns X Y) /\ List.length X = List.length Y /\
    forall n x y, nth_error X n = Some x -> nth_error Y n = Some y ->
      exists t i, In t l /\ d_p d <= i /\ i < List.length (ts_rows t) /\
        x = pick (col_names t) (snd (nth i (ts_rows t) (0%Z, []))) columns /\
        y = flat_map (fun k => pick (col_names t) (snd (nth (i - k) (ts_rows t) (0%Z, []))) columns) (seq 1 (d_p d)) /\
        forall k, k < d_p d -> (0 <= fst (nth (i - k) (ts_rows t) (0%Z, [])) - fst (nth (i - k - 1) (ts_rows t) (0%Z, [])) <= 1)%Z.
Proof.
  intros Dc Hp A. do 2 eexists. split; [apply transform_arrays; eauto|].
  set (p := d_p d) in *.
  set (R := fun x y => exists t i, In t l /\ p <= i /\ i < List.length (ts_rows t) /\
        x = pick (col_names t) (snd (nth i (ts_rows t) (0%Z, []))) columns /\
        y = flat_map (fun k => pick (col_names t) (snd (nth (i - k) (ts_rows t) (0%Z, []))) columns) (seq 1 p) /\
        forall k, k < p -> (0 <= fst (nth (i - k) (ts_rows t) (0%Z, [])) - fst (nth (i - k - 1) (ts_rows t) (0%Z, [])) <= 1)%Z).
  assert (F : Forall2 R (flat_map (fun t => flat_map (fun run => x_of p (picked columns t run)) (runs (ts_rows t))) l)
                        (flat_map (fun t => flat_map (fun run => y_of p (picked columns t run)) (runs (ts_rows t))) l)).
  { apply Forall2_flat_map. intros t Ht. apply Forall2_flat_map. intros run Hr. unfold x_of, y_of.
    assert (Pl : List.length (picked columns t run) = List.length run) by apply map_length. rewrite Pl.
    apply Forall2_maps. intros j Hj. apply in_seq in Hj. pose proof (runs_ok _ _ Hr) as OK.
    apply in_split in Hr. destruct Hr as (l1 & l2 & E). apply run_segment in E.
    set (a := List.length (List.concat l1)).
    assert (Nt : forall i, i < List.length run -> nth (a + i) (ts_rows t) (0%Z, []) = nth i run (0%Z, [])).
    { intros i Hi. rewrite E, app_nth2, app_nth1 by (unfold a; lia). f_equal. unfold a. lia. }
    assert (Ll : a + List.length run <= List.length (ts_rows t)) by (rewrite E, !app_length; unfold a; lia).
    exists t, (a + p + j). split; auto. split; [lia|]. split; [lia|]. split.
    { rewrite picked_nth by lia. do 2 f_equal. rewrite <- Nt by lia. f_equal. lia. }
    split.
    { apply flat_map_ext_in'. intros k Hk. apply in_seq in Hk. rewrite picked_nth by lia. do 2 f_equal. rewrite <- Nt by lia. f_equal. lia. }
    intros k Hk. replace (a + p + j - k) with (a + S (p + j - k - 1)) by lia. replace (a + S (p + j - k - 1) - 1) with (a + (p + j - k - 1)) by lia.
    rewrite !Nt by lia. split.
    - destruct A as (_ & _ & A). destruct (A t Ht) as (_ & _ & So & _). rewrite E, !map_app in So.
      assert (Sr : StronglySorted Z.le (map fst run)).
      { clear -So. assert (G : forall (u w : list Z), StronglySorted Z.le (u ++ w) -> StronglySorted Z.le u /\ StronglySorted Z.le w).
        { induction u as [|x u IH]; cbn; intros w H; [split; [constructor|auto]|]. inversion H as [|? ? H' F]; subst.
          destruct (IH w H'). split; auto. constructor; auto. rewrite Forall_forall in *. intros z Hz. apply F, in_or_app; auto. }
        apply G in So. destruct So as [_ So]. apply G in So. tauto. }
      assert (Le : forall (u : list (Z * list Qc)), StronglySorted Z.le (map fst u) -> forall i, S i < List.length u ->
         (fst (nth i u (0%Z, [])) <= fst (nth (S i) u (0%Z, [])))%Z).
      { clear. induction u as [|x u IH]; cbn [map]; intros H i Hi; cbn in Hi; [lia|]. inversion H as [|? ? H' F]; subst.
        destruct i as [|i]; cbn [nth]; [|apply IH; auto; lia]. destruct u as [|w u]; [cbn in Hi; lia|]. inversion F; auto. }
      specialize (Le run Sr (p + j - k - 1) ltac:(lia)). lia.
    - apply OK. lia. }
  split; [clear -F; induction F; cbn; auto|]. intros n x y Hx Hy. clear -F Hx Hy.
  change (R x y). revert n Hx Hy. induction F as [|x' y' X Y H F IH]; intros [|n] Hx Hy; cbn in *; try discriminate.
  - injection Hx as ->. injection Hy as ->. auto.
  - eauto.
Qed.

(** ** Fitting *)
Theorem fit_columns d l b d' : ddt_fit d l b = Ok d' ->
  exists first rest, l = first :: rest /\ d_columns d' = Some (col_names first) /\ d_p d' = d_p d /\ d_return_df d' = b.
Proof.
  unfold ddt_fit. destruct (check_input (d_columns d) l); [|discriminate]. cbn [bind].
  destruct l as [|first rest]; [discriminate|]. intros [= <-]. exists first, rest. auto.
Qed.

Theorem transform_rejects d columns l : d_columns d = Some columns -> ~ acceptable columns l -> exists e, ddt_transform d l = Err e.
Proof.
  intros Dc N. unfold ddt_transform. rewrite Dc. destruct (check_input (Some columns) l) as [[]|e] eqn:E; [|cbn; eauto].
  exfalso. apply N, check_input_ok; auto.
Qed.
