(** * PropsAccepts: property C110 (which data and bans NOTEARS and DYNOTEARS accept). *)
From Coq Require Import List Bool Arith ZArith Lia String QArith Qcanon Sorted.
From Verif Require Import Base Names QcX Digraph SmModel NotearsModel NotearsProofs NotearsThms NotearsThr TransModel TransProofs TransThms DynoModel DynoProofs DynoThms NotearsAccepts PropsNotears PropsTrans PropsDyno.
Import ListNotations.
Local Open Scope string_scope.
Local Open Scope list_scope.
Local Open Scope nat_scope.

(** Arrays: accepted if there are rows and columns and all values are finite numbers, otherwise ValueError; bans do not matter. *)
Theorem C110_numpy : forall fuel opt eh X p t, respects_bounds opt -> (forall w, eh (m_cols X) w <> PInf) -> 21 <= fuel ->
  let good := m_rows X <> [] /\ m_cols X <> 0 /\ (forall r x, In r (m_rows X) -> In x r -> exists q, x = Fin q) in
  (good -> (exists g, from_numpy fuel opt eh X p t = Ok g) /\ (exists g, from_numpy_lasso fuel opt eh X p t = Ok g)) /\
  (~ good -> from_numpy fuel opt eh X p t = Err ValueError /\ from_numpy_lasso fuel opt eh X p t = Err ValueError).
Proof.
  intros fuel opt eh X p t RB Fi Hf good.
  destruct (plain_runs fuel opt eh X p t RB Fi Hf) as [A B]. destruct (lasso_runs fuel opt eh X p t RB Fi Hf) as [C D].
  assert (G : good <-> has_data X /\ finite_data X) by (unfold good, has_data, finite_data; tauto). split.
  - intros H. apply G in H. destruct (A H) as (g & E & _). destruct (C H) as (g' & E' & _). eauto.
  - intros N. split; [apply B|apply D]; tauto.
Qed.
Print Assumptions C110_numpy.

(** Data frames: moreover all columns have to be numeric (else ValueError), and all banned names have to be columns (else KeyError). *)
Theorem C110_pandas : forall fuel opt eh X p t, respects_bounds opt -> (forall d w, eh d w <> PInf) -> 21 <= fuel -> NoDup (map fst (f_cols X)) ->
  let cols := map fst (f_cols X) in
  let good := f_rows X <> [] /\ cols <> [] /\ (forall r x, In r (f_rows X) -> In x r -> exists q, x = Fin q) in
  let numbers := forall c, In c (f_cols X) -> snd c = true in
  forall call, call = notears_pandas fuel opt eh X p t \/ call = notears_pandas_lasso fuel opt eh X p t ->
  ((exists g, call = Ok g) <-> numbers /\ known cols t /\ good) /\
  (~ numbers -> call = Err ValueError) /\ (numbers -> ~ known cols t -> call = Err KeyError) /\ (numbers -> known cols t -> ~ good -> call = Err ValueError).
Proof.
  intros fuel opt eh X p t RB Fi Hf ND cols good numbers call Hc.
  assert (G : good <-> has_data (as_mat X) /\ finite_data (as_mat X)).
  { unfold good, has_data, finite_data, as_mat, cols. cbn [m_rows m_cols]. destruct (f_cols X); cbn; intuition (congruence || lia). }
  destruct Hc as [-> | ->].
  - destruct (pandas_accepts (fun M tz => from_numpy fuel opt eh M p tz) X t ND) as (A & B & C & D).
    + intros tz. destruct (plain_runs fuel opt eh (as_mat X) p tz RB (Fi _) Hf) as [E F]. split; auto. intros H. destruct (E H) as (g & Eg & w & Gg). eauto 10.
    + unfold numbers. change (forall c, In c (f_cols X) -> snd c = true) with (numeric X). change (notears_pandas fuel opt eh X p t) with (from_pandas (fun M tz => from_numpy fuel opt eh M p tz) X t). fold cols in A, C, D. rewrite <- G in *. auto.
  - destruct (pandas_accepts (fun M tz => from_numpy_lasso fuel opt eh M p tz) X t ND) as (A & B & C & D).
    + intros tz. destruct (lasso_runs fuel opt eh (as_mat X) p tz RB (Fi _) Hf) as [E F]. split; auto. intros H. destruct (E H) as (g & Eg & w & Gg). eauto 10.
    + unfold numbers. change (forall c, In c (f_cols X) -> snd c = true) with (numeric X). change (notears_pandas_lasso fuel opt eh X p t) with (from_pandas (fun M tz => from_numpy_lasso fuel opt eh M p tz) X t). fold cols in A, C, D. rewrite <- G in *. auto.
Qed.
Print Assumptions C110_pandas.

(** DYNOTEARS on arrays: as many rows with lags as without, and the number of columns with lags a multiple of that of X. *)
Theorem C110_dynamic_partial : forall fuel opt eh X Xlags par t, respects_bounds opt -> (forall w, eh (m_cols X) w <> PInf) -> 21 <= fuel ->
  let good := m_rows X <> [] /\ m_cols X <> 0 /\ m_cols Xlags <> 0 /\ List.length (m_rows X) = List.length (m_rows Xlags) /\ (exists p, m_cols Xlags = p * m_cols X) in
  (good -> exists g, from_numpy_dynamic fuel opt eh X Xlags par t = Ok g) /\
  (~ good -> m_cols X <> 0 -> from_numpy_dynamic fuel opt eh X Xlags par t = Err ValueError) /\
  (m_cols X = 0 -> from_numpy_dynamic fuel opt eh X Xlags par t = Err ZeroDivisionError).
Proof.
  intros fuel opt eh X Xlags par t RB Fi Hf good.
  destruct (dynamic_parts fuel opt eh X Xlags par t RB Fi Hf) as (A & B & C). unfold from_numpy_dynamic. split; [|split].
  - intros (G1 & G2 & G3 & G4 & G5). destruct A as (g & b & ->); [split; auto| |split; auto|cbn; eauto]. split; auto. intros E. rewrite E in G4. cbn in G4. apply length_zero_iff_nil in G4. auto.
  - intros N Z. rewrite B; auto. intros ((H1 & H2) & (H3 & H4) & H5 & H6). apply N. repeat split; auto.
  - intros Z. rewrite C; auto.
Qed.
Print Assumptions C110_dynamic_partial.

(** Missing there, and false: missing values are refused. *)
Theorem C110_dynamic_refuted : exists opt eh X Xlags par t g, respects_bounds opt /\ In [NaN] (m_rows X) /\ from_numpy_dynamic 21 opt eh X Xlags par t = Ok g.
Proof.
  exists ex_dopt, ex_eh, (mkMat 1 [[NaN]; [Fin 1%Qc]]), (mkMat 1 [[Fin 1%Qc]; [Fin 1%Qc]]), ex_par, (mkDtabu None None None). eexists.
  split; [exact ex_dopt_respects|]. split; [left; auto|]. vm_compute. reflexivity.
Qed.
Print Assumptions C110_dynamic_refuted.

(** DYNOTEARS on data frames with increasing times: the series have the same columns, all numeric, and times that are
    integers; the lag is at least one; banned names are columns; some time has all its predecessors. *)
Theorem C110_pandas_dynamic : forall fuel opt eh l p par t, respects_bounds opt -> (forall d w, eh d w <> PInf) -> 21 <= fuel ->
  NoDup (variables l) -> (forall s, In s l -> well_formed s /\ strict s) ->
  (exists g, from_pandas_dynamic fuel opt eh l p par t = Ok g) <->
  acceptable (variables l) l /\ 1 <= p /\ known_lagged (variables l) t /\ variables l <> [] /\ expected p l <> [].
Proof. exact pandas_dynamic_accepts. Qed.
Print Assumptions C110_pandas_dynamic.

Example C110_met : respects_bounds ex_opt /\ (forall d w, ex_eh d w <> PInf) /\ NoDup (map fst (f_cols ex_frame)) /\ known (map fst (f_cols ex_frame)) ex_tabu /\
  (exists g, notears_pandas 21 ex_opt ex_eh ex_frame ex_par ex_tabu = Ok g) /\
  notears_pandas 21 ex_opt ex_eh ex_frame ex_par (mkTabu None (Some [LStr "x"]) None) = Err KeyError /\
  notears_pandas 21 ex_opt ex_eh (mkFrame [(LStr "a", false)] [[Fin 1%Qc]]) ex_par (mkTabu None None None) = Err ValueError /\
  from_numpy 21 ex_opt ex_eh (mkMat 1 [[NaN]]) ex_par (mkTabu None None None) = Err ValueError.
Proof.
  split; [apply C29_hypotheses_met|]. split; [intros d w; discriminate|].
  assert (ND : NoDup (map fst (f_cols ex_frame))) by (repeat constructor; cbn; intuition congruence).
  split; auto. split.
  { split; [|split].
    - intros l u v [= <-] I. cbn in I. intuition (match goal with H : _ = _ |- _ => injection H as <- <- end; cbn; auto).
    - intros l u [= <-] I. cbn in I. intuition (subst; cbn; auto).
    - intros l u E I. discriminate. }
  split; [eexists; vm_compute; reflexivity|]. repeat split; vm_compute; reflexivity.
Qed.

Example C110_dynamic_met : respects_bounds ex_dopt /\ NoDup (variables [s1; s2]) /\ variables [s1; s2] = ["u"; "v"] /\ List.length (expected 1 [s1; s2]) = 4 /\
  (exists g, from_pandas_dynamic 21 ex_dopt ex_eh [s1; s2] 1 ex_par ex_dtabu = Ok g) /\
  expected 9 [s1; s2] = [] /\ from_pandas_dynamic 21 ex_dopt ex_eh [s1; s2] 9 ex_par ex_dtabu = Err ValueError /\
  from_pandas_dynamic 21 ex_dopt ex_eh [s1; s2] 1 ex_par (mkDtabu None None (Some ["w"])) = Err KeyError.
Proof.
  split; [exact ex_dopt_respects|]. split; [repeat constructor; cbn; intuition congruence|]. split; [reflexivity|]. split; [vm_compute; reflexivity|].
  split; [eexists; vm_compute; reflexivity|]. repeat split; vm_compute; reflexivity.
Qed.
