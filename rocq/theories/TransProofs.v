(** * TransProofs: lemmas about the time series transformer. *)
From Coq Require Import List Bool Arith ZArith Lia String QArith Qcanon Sorting.Sorted.
From Verif Require Import Base Names TransModel.
Import ListNotations.
Local Open Scope string_scope.
Local Open Scope list_scope.
Local Open Scope nat_scope.

(** ** Lists by position *)
Lemma nth_firstn {A} i n (l : list A) d : i < n -> nth i (firstn n l) d = nth i l d.
Proof. revert i l. induction n as [|n IH]; intros [|i] [|a l] H; cbn; auto; try lia. apply IH. lia. Qed.
Lemma nth_skipn {A} i n (l : list A) d : nth i (skipn n l) d = nth (n + i) l d.
Proof. revert l. induction n as [|n IH]; intros [|a l]; cbn; auto. destruct i; auto. Qed.

Lemma list_ext {A} (l l' : list A) d : List.length l = List.length l' ->
  (forall i, i < List.length l -> nth i l d = nth i l' d) -> l = l'.
Proof.
  revert l'. induction l as [|a l IH]; intros [|b l'] L H; cbn in L; try lia; auto.
  f_equal; [apply (H 0); cbn; lia|]. apply IH; [lia|]. intros i Hi. apply (H (S i)). cbn. lia.
Qed.

Lemma nth_seq_map {A} (f : nat -> A) n i d : i < n -> nth i (map f (seq 0 n)) d = f i.
Proof.
  intros H. rewrite (nth_indep _ d (f 0)) by (rewrite map_length, seq_length; auto).
  rewrite map_nth, seq_nth; auto.
Qed.

Lemma list_as_map {A} (l : list A) d : l = map (fun i => nth i l d) (seq 0 (List.length l)).
Proof.
  apply (list_ext _ _ d); [rewrite map_length, seq_length; auto|]. intros i Hi. rewrite nth_seq_map; auto.
Qed.

(** ** Slices *)
Lemma slice_nth {A} (a b : nat) (l : list A) d : a <= b -> b <= List.length l ->
  slice (Z.of_nat a) (Z.of_nat b) l = map (fun j => nth (a + j) l d) (seq 0 (b - a)).
Proof.
  intros H1 H2. unfold slice, norm_index.
  replace (Z.of_nat a <? 0)%Z with false by (symmetry; apply Z.ltb_ge; lia).
  replace (Z.of_nat b <? 0)%Z with false by (symmetry; apply Z.ltb_ge; lia).
  rewrite !Nat2Z.id, !Nat.min_l by lia. apply (list_ext _ _ d).
  - rewrite firstn_length, skipn_length, map_length, seq_length. lia.
  - intros i Hi. rewrite firstn_length, skipn_length in Hi. rewrite nth_firstn by lia.
    rewrite nth_skipn, nth_seq_map by lia. auto.
Qed.

Lemma slice_empty {A} (a b : Z) (l : list A) : norm_index b (List.length l) <= norm_index a (List.length l) -> slice a b l = [].
Proof. intros H. unfold slice. replace (_ - _) with 0 by lia. reflexivity. Qed.

Lemma slice_X {A} p (r : list A) d : slice (Z.of_nat p) (Z.of_nat (List.length r)) r = map (fun j => nth (p + j) r d) (seq 0 (List.length r - p)).
Proof.
  destruct (le_lt_dec p (List.length r)) as [H|H]; [apply slice_nth; auto|].
  rewrite slice_empty; [replace (List.length r - p) with 0 by lia; auto|]. unfold norm_index.
  replace (Z.of_nat p <? 0)%Z with false by (symmetry; apply Z.ltb_ge; lia).
  replace (Z.of_nat (List.length r) <? 0)%Z with false by (symmetry; apply Z.ltb_ge; lia). lia.
Qed.

Lemma slice_Y {A} p i (r : list A) d : i < p ->
  slice (Z.of_nat p - Z.of_nat i - 1) (- Z.of_nat i - 1) r = map (fun j => nth (p + j - (i + 1)) r d) (seq 0 (List.length r - p)).
Proof.
  intros Hi. destruct (le_lt_dec p (List.length r)) as [H|H].
  - replace (slice (Z.of_nat p - Z.of_nat i - 1) (- Z.of_nat i - 1) r)
      with (slice (Z.of_nat (p - i - 1)) (Z.of_nat (List.length r - i - 1)) r).
    + rewrite (slice_nth _ _ _ d) by lia. replace (List.length r - i - 1 - (p - i - 1)) with (List.length r - p) by lia.
      apply map_ext. intros j. f_equal. lia.
    + unfold slice. f_equal.
      * f_equal; [|f_equal]; unfold norm_index;
          repeat match goal with |- context [(?a <? 0)%Z] => destruct (Z.ltb_spec a 0) end; lia.
      * f_equal. unfold norm_index. repeat match goal with |- context [(?a <? 0)%Z] => destruct (Z.ltb_spec a 0) end; lia.
  - rewrite slice_empty; [replace (List.length r - p) with 0 by lia; auto|]. unfold norm_index.
    repeat match goal with |- context [(?a <? 0)%Z] => destruct (Z.ltb_spec a 0) end; lia.
Qed.

(** ** Concatenation of blocks with equally many rows *)
Lemma zip_rows_nth {A} (a b : list (list A)) m : List.length a = m -> List.length b = m ->
  zip_rows a b = map (fun j => nth j a [] ++ nth j b []) (seq 0 m).
Proof.
  intros <-. revert b. induction a as [|x a IH]; intros [|y b] Hb; cbn [List.length] in Hb; try lia; auto.
  cbn [zip_rows List.length seq map nth]. f_equal. rewrite IH by lia. rewrite <- seq_shift, map_map. auto.
Qed.

Lemma fold_zip {A} (bs : list (list (list A))) b m : List.length b = m -> (forall c, In c bs -> List.length c = m) ->
  fold_left zip_rows bs b = map (fun j => flat_map (fun c => nth j c []) (b :: bs)) (seq 0 m).
Proof.
  revert b. induction bs as [|c bs IH]; intros b Hb H; cbn [fold_left].
  - rewrite (list_as_map b []) at 1. rewrite Hb. apply map_ext. intros j. cbn. rewrite app_nil_r. auto.
  - rewrite IH; [|rewrite (zip_rows_nth b c m), map_length, seq_length by (auto; apply H; left; auto); auto|intros; apply H; right; auto].
    rewrite (zip_rows_nth b c m) by (auto; apply H; left; auto).
    apply map_ext_in. intros j Hj. apply in_seq in Hj. cbn [flat_map]. rewrite nth_seq_map by lia. rewrite <- app_assoc. auto.
Qed.

Lemma hcat_ok {A} (bs : list (list (list A))) m : bs <> [] -> (forall c, In c bs -> List.length c = m) ->
  hcat bs = Ok (map (fun j => flat_map (fun c => nth j c []) bs) (seq 0 m)).
Proof.
  intros N H. destruct bs as [|b bs]; [congruence|]. cbn [hcat].
  replace (forallb _ bs) with true.
  - f_equal. apply fold_zip; [|intros]; apply H; cbn; auto.
  - symmetry. apply forallb_forall. intros c Hc. apply Nat.eqb_eq. rewrite !H; cbn; auto.
Qed.

(** ** The arrays of one realisation *)
Definition x_of {A} (p : nat) (r : list (list A)) : list (list A) := map (fun j => nth (p + j) r []) (seq 0 (List.length r - p)).
Definition y_of {A} (p : nat) (r : list (list A)) : list (list A) :=
  map (fun j => flat_map (fun k => nth (p + j - k) r []) (seq 1 p)) (seq 0 (List.length r - p)).

Lemma convert_ok p rs : 1 <= p -> rs <> [] -> convert p rs = Ok (flat_map (x_of p) rs, flat_map (y_of p) rs).
Proof.
  intros Hp N. unfold convert. destruct rs as [|r0 rs0] eqn:E; [congruence|]. rewrite <- E. clear E r0 rs0 N.
  assert (M : forall l, mapM (fun r : list (list Qc) => hcat (map (fun i => slice (Z.of_nat p - Z.of_nat i - 1) (- Z.of_nat i - 1) r) (seq 0 p))) l = Ok (map (y_of p) l)).
  { induction l as [|r l IH]; auto. cbn [mapM map]. rewrite (hcat_ok _ (List.length r - p)).
    - cbn [bind]. rewrite IH. cbn [bind]. do 2 f_equal. unfold y_of. apply map_ext_in. intros j Hj. apply in_seq in Hj.
      rewrite <- seq_shift, flat_map_concat_map, flat_map_concat_map, !map_map. f_equal. apply map_ext_in. intros i Hi. apply in_seq in Hi.
      rewrite (slice_Y p i r []) by lia. rewrite nth_seq_map by lia. f_equal. lia.
    - destruct p; [lia|discriminate].
    - intros c Hc. apply in_map_iff in Hc. destruct Hc as (i & <- & Hi). apply in_seq in Hi.
      rewrite (slice_Y p i r []) by lia. rewrite map_length, seq_length. auto. }
  rewrite M. cbn [bind]. do 2 f_equal; [|rewrite flat_map_concat_map; auto].
  apply flat_map_ext. intros r. apply slice_X.
Qed.

(** ** Runs *)
Fixpoint runs (rows : list (Z * list Qc)) : list (list (Z * list Qc)) :=
  match rows with
  | [] => [[]]
  | a :: rest =>
      match rest with
      | [] => [[a]]
      | b :: _ => if (fst b - fst a >? 1)%Z then [a] :: runs rest
                  else match runs rest with x :: xs => (a :: x) :: xs | [] => [[a]] end
      end
  end.

Lemma runs_cons2 a b r : runs (a :: b :: r) =
  if (fst b - fst a >? 1)%Z then [a] :: runs (b :: r) else match runs (b :: r) with x :: xs => (a :: x) :: xs | [] => [[a]] end.
Proof. reflexivity. Qed.

Lemma runs_ne rows : runs rows <> [].
Proof.
  destruct rows as [|a [|b r]]; try discriminate. rewrite runs_cons2. destruct (_ >? _)%Z; [discriminate|]. destruct (runs (b :: r)); discriminate.
Qed.

Fixpoint pairs (s : nat) (js : list nat) (n : nat) : list (nat * nat) :=
  match js with [] => [(s, n)] | j :: r => (s, j) :: pairs j r n end.

Lemma pairs_combine s js n : combine (removelast (s :: js ++ [n])) (js ++ [n]) = pairs s js n.
Proof.
  revert s. induction js as [|j js IH]; intros s; auto.
  change (removelast (s :: (j :: js) ++ [n])) with (s :: removelast (j :: js ++ [n])). cbn [app combine pairs]. f_equal. apply IH.
Qed.

Lemma slice_mid {A} (pre m post : list A) : slice (Z.of_nat (List.length pre)) (Z.of_nat (List.length pre + List.length m)) (pre ++ m ++ post) = m.
Proof.
  unfold slice, norm_index.
  replace (Z.of_nat (List.length pre) <? 0)%Z with false by (symmetry; apply Z.ltb_ge; lia).
  replace (Z.of_nat (List.length pre + List.length m) <? 0)%Z with false by (symmetry; apply Z.ltb_ge; lia).
  rewrite !Nat2Z.id, !app_length, !Nat.min_l by lia. rewrite skipn_app, skipn_all2 by lia. rewrite Nat.sub_diag. cbn [skipn app].
  rewrite firstn_app. replace (_ + _ - _ - _) with 0 by lia. cbn. rewrite app_nil_r. apply firstn_all2. lia.
Qed.

Lemma jumps_cons2 i a b r : jumps i (a :: b :: r) = if (b - a >? 1)%Z then S i :: jumps (S i) (b :: r) else jumps (S i) (b :: r).
Proof. reflexivity. Qed.

Lemma cut_runs_aux rest : forall pre cur a,
  let rows := pre ++ cur ++ a :: rest in
  map (fun se => slice (Z.of_nat (fst se)) (Z.of_nat (snd se)) rows)
      (pairs (List.length pre) (jumps (List.length pre + List.length cur) (map fst (a :: rest))) (List.length rows)) =
  match runs (a :: rest) with x :: xs => (cur ++ x) :: xs | [] => [] end.
Proof.
  induction rest as [|b r IH]; intros pre cur a rows.
  - cbn [map jumps pairs runs fst snd]. f_equal. unfold rows.
    replace (List.length (pre ++ cur ++ [a])) with (List.length pre + List.length (cur ++ [a])) by (rewrite !app_length; cbn; lia).
    replace (pre ++ cur ++ [a]) with (pre ++ (cur ++ [a]) ++ []) by (rewrite app_nil_r; auto). apply slice_mid.
  - rewrite runs_cons2. cbn [map] in IH |- *. rewrite jumps_cons2. destruct (fst b - fst a >? 1)%Z eqn:J.
    + cbn [pairs map fst snd]. f_equal.
      * unfold rows. replace (S (List.length pre + List.length cur)) with (List.length pre + List.length (cur ++ [a])) by (rewrite app_length; cbn; lia).
        replace (pre ++ cur ++ a :: b :: r) with (pre ++ (cur ++ [a]) ++ (b :: r)) by (rewrite <- app_assoc; auto). apply slice_mid.
      * specialize (IH (pre ++ cur ++ [a]) [] b). cbv zeta in IH.
        replace ((pre ++ cur ++ [a]) ++ [] ++ b :: r) with rows in IH by (unfold rows; rewrite <- !app_assoc; auto).
        replace (List.length (pre ++ cur ++ [a])) with (S (List.length pre + List.length cur)) in IH by (rewrite !app_length; cbn; lia).
        rewrite Nat.add_0_r in IH. cbn [List.length] in IH. rewrite IH.
        destruct (runs (b :: r)); reflexivity.
    + specialize (IH pre (cur ++ [a]) b). cbv zeta in IH.
      replace (pre ++ (cur ++ [a]) ++ b :: r) with rows in IH by (unfold rows; rewrite <- !app_assoc; auto).
      replace (List.length pre + List.length (cur ++ [a])) with (S (List.length pre + List.length cur)) in IH by (rewrite !app_length; cbn; lia).
      cbn [map] in IH. rewrite IH. pose proof (runs_ne (b :: r)) as N. destruct (runs (b :: r)); [congruence|].
      rewrite <- app_assoc. reflexivity.
Qed.

Lemma cut_one_runs rows : cut_one rows = map (map snd) (runs rows).
Proof.
  unfold cut_one. cbv zeta. cbn [tl]. rewrite pairs_combine.
  rewrite <- (map_map (fun se => slice (Z.of_nat (fst se)) (Z.of_nat (snd se)) rows) (map snd)). f_equal.
  destruct rows as [|a rest].
  - reflexivity.
  - pose proof (cut_runs_aux rest [] [] a) as H. cbv zeta in H. cbn [app List.length Nat.add] in H. cbn [List.length]. rewrite H.
    destruct (runs (a :: rest)); reflexivity.
Qed.

(** Mapping the values keeps the runs. *)
Lemma runs_map (f : list Qc -> list Qc) rows :
  runs (map (fun r => (fst r, f (snd r))) rows) = map (map (fun r => (fst r, f (snd r)))) (runs rows).
Proof.
  induction rows as [|a [|b r] IH]; auto. cbn [map] in *. rewrite !runs_cons2. cbn [fst].
  destruct (_ >? _)%Z; [cbn [map]; f_equal; exact IH|]. rewrite IH.
  destruct (runs (b :: r)); reflexivity.
Qed.

(** ** Properties of the runs *)
Definition run_ok (run : list (Z * list Qc)) : Prop :=
  forall i d, S i < List.length run -> (fst (nth (S i) run d) - fst (nth i run d) <= 1)%Z.

Lemma runs_concat rows : List.concat (runs rows) = rows.
Proof.
  induction rows as [|a [|b r] IH]; auto. rewrite runs_cons2. destruct (_ >? _)%Z; [cbn [List.concat app]; f_equal; exact IH|]. destruct (runs (b :: r)) as [|x xs] eqn:E; [exfalso; exact (runs_ne _ E)|].
  cbn in *. f_equal. exact IH.
Qed.

Lemma runs_hd a rest : exists x xs, runs (a :: rest) = (a :: x) :: xs.
Proof.
  destruct rest as [|b r]; [cbn; eauto|]. rewrite runs_cons2. destruct (_ >? _)%Z; [eauto|]. destruct (runs (b :: r)) as [|x xs]; eauto.
Qed.

Lemma runs_ok rows run : In run (runs rows) -> run_ok run.
Proof.
  revert run. induction rows as [|a [|b r] IH]; intros run H.
  - destruct H as [<-|[]]. intros i d Hi. cbn in Hi. lia.
  - destruct H as [<-|[]]. intros i d Hi. cbn in Hi. lia.
  - rewrite runs_cons2 in H. destruct (fst b - fst a >? 1)%Z eqn:J.
    + destruct H as [<-|H]; auto. intros i d Hi. cbn in Hi. lia.
    + destruct (runs_hd b r) as (x & xs & E). rewrite E in *. destruct H as [<-|H].
      * intros [|i] d Hi; cbn [nth].
        -- rewrite Z.gtb_ltb in J. apply Z.ltb_ge in J. lia.
        -- apply (IH (b :: x) (or_introl eq_refl) i d). cbn in *. lia.
      * apply IH. right; auto.
Qed.
