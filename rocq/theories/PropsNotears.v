(** * PropsNotears: properties C29, C30 and C31, structure learning with NOTEARS. *)
From Coq Require Import List Bool Arith ZArith Lia String QArith Qcanon.
From Verif Require Import Base QcX Digraph SmModel NotearsModel NotearsProofs NotearsThms.
Import ListNotations.
Local Open Scope string_scope.
Local Open Scope list_scope.
Local Open Scope nat_scope.

(** ** C29: banned edges are never learned *)
Theorem C29_tabu_numpy : forall fuel opt eh X p t g, respects_bounds opt -> from_numpy fuel opt eh X p t = Ok g ->
  forall u v, In (u, v) (edges g) ->
    exists i j, i < m_cols X /\ j < m_cols X /\ u = LInt (Z.of_nat i) /\ v = LInt (Z.of_nat j) /\ i <> j /\ ~ banned t (Z.of_nat i) (Z.of_nat j).
Proof. exact numpy_no_ban. Qed.
Print Assumptions C29_tabu_numpy.

Theorem C29_tabu_numpy_lasso : forall fuel opt eh X p t g, respects_bounds opt -> from_numpy_lasso fuel opt eh X p t = Ok g ->
  forall u v, In (u, v) (edges g) ->
    exists i j, i < m_cols X /\ j < m_cols X /\ u = LInt (Z.of_nat i) /\ v = LInt (Z.of_nat j) /\ i <> j /\ ~ banned t (Z.of_nat i) (Z.of_nat j).
Proof. exact numpy_lasso_no_ban. Qed.
Print Assumptions C29_tabu_numpy_lasso.

Theorem C29_tabu_pandas : forall fuel opt eh X p t g, respects_bounds opt -> NoDup (map fst (f_cols X)) ->
  notears_pandas fuel opt eh X p t = Ok g -> forall u v, In (u, v) (edges g) ->
    In u (map fst (f_cols X)) /\ In v (map fst (f_cols X)) /\ u <> v /\ ~ banned t u v.
Proof. exact pandas_plain_no_ban. Qed.
Print Assumptions C29_tabu_pandas.

Theorem C29_tabu_pandas_lasso : forall fuel opt eh X p t g, respects_bounds opt -> NoDup (map fst (f_cols X)) ->
  notears_pandas_lasso fuel opt eh X p t = Ok g -> forall u v, In (u, v) (edges g) ->
    In u (map fst (f_cols X)) /\ In v (map fst (f_cols X)) /\ u <> v /\ ~ banned t u v.
Proof. exact pandas_lasso_no_ban. Qed.
Print Assumptions C29_tabu_pandas_lasso.

(** Names in a tabu list that are not columns are reported. *)
Theorem C29_unknown_column : forall fuel opt eh X p t u v l, NoDup (map fst (f_cols X)) ->
  forallb snd (f_cols X) = true -> t_edges t = Some l -> In (u, v) l ->
  ~ (In u (map fst (f_cols X)) /\ In v (map fst (f_cols X))) ->
  notears_pandas fuel opt eh X p t = Err KeyError /\ notears_pandas_lasso fuel opt eh X p t = Err KeyError.
Proof. exact pandas_unknown_column. Qed.
Print Assumptions C29_unknown_column.

(** An optimiser that moves every free entry to 1/2 and every entry bounded below to its bound plus 1/2. *)
Definition ex_opt : optimiser := fun bnds _ _ _ _ =>
  map (fun b => match b with (Some l, Some _) => l | (Some l, None) => (l + Q2Qc (1 # 2))%Qc | (None, Some u) => u | (None, None) => Q2Qc (1 # 2) end) bnds.
Definition ex_eh : penalty := fun _ _ => Fin 0.
Definition ex_par : params := mkParams 100 (Q2Qc (1 # 100)) (Q2Qc (1 # 10)).
Definition ex_frame : frame := mkFrame [(LStr "a", true); (LStr "b", true); (LStr "c", true)] [[Fin 1; Fin 0; Fin 1]; [Fin 0; Fin 1; Fin 1]]%Qc.
Definition ex_tabu : tabu label := mkTabu (Some [(LStr "a", LStr "b")]) (Some [LStr "c"]) None.

Example C29_hypotheses_met : respects_bounds ex_opt /\ NoDup (map fst (f_cols ex_frame)) /\
  exists g, notears_pandas 21 ex_opt ex_eh ex_frame ex_par ex_tabu = Ok g /\
    edges g = [(LStr "a", LStr "c"); (LStr "b", LStr "a"); (LStr "b", LStr "c")].
Proof.
  split; [|split].
  - intros bnds r a x k F. unfold ex_opt. induction F as [|b bnds (y & Hy) F IH]; cbn [map]; constructor; auto.
    destruct b as [[l|] [u|]]; split; cbn in *; intros z [= <-]; try apply Qcle_refl.
    + apply Qcle_trans with y; apply Hy; auto.
    + qlra.
  - repeat constructor; cbn; intuition congruence.
  - eexists. split; [vm_compute; reflexivity|]. vm_compute. reflexivity.
Qed.

(** ** C30: the learned graph matches the learned weights *)

(** One node per column, and the edges are exactly the pairs whose weight is above the threshold. *)
Theorem C30_numpy_partial : forall fuel opt eh X p t g, from_numpy fuel opt eh X p t = Ok g ->
  exists w, learned_vector opt (m_cols X * m_cols X) p w /\
    graph_of g (m_cols X) (fun i => LInt (Z.of_nat i)) "unknown" (fun i j => nth (i * m_cols X + j) w 0%Qc)
      (fun x => x <> 0%Qc /\ (w_threshold p < Qcabs x)%Qc).
Proof. exact numpy_result. Qed.
Print Assumptions C30_numpy_partial.

Theorem C30_numpy_lasso_partial : forall fuel opt eh X p t g, from_numpy_lasso fuel opt eh X p t = Ok g ->
  let d := m_cols X in
  exists w, learned_vector opt (2 * d * d) p w /\
    graph_of g d (fun i => LInt (Z.of_nat i)) "unknown" (fun i j => nth (i * d + j) w 0 - nth (d * d + (i * d + j)) w 0)%Qc
      (fun x => x <> 0%Qc /\ (w_threshold p <= Qcabs x)%Qc).
Proof. exact numpy_lasso_result. Qed.
Print Assumptions C30_numpy_lasso_partial.

(** Missing above, and false: the origin of the edges is not "learned". *)
Theorem C30_numpy_origin_refuted : exists opt eh X p t g u v a,
  respects_bounds opt /\ from_numpy 21 opt eh X p t = Ok g /\ edge_attrs g u v = Some a /\ dget String.eqb a "origin" <> Some (AStr "learned").
Proof.
  exists ex_opt, ex_eh, (mkMat 2 [[Fin 1; Fin 0]]%Qc), ex_par, (mkTabu None None None). eexists. exists (LInt 0), (LInt 1). eexists.
  split; [apply C29_hypotheses_met|]. split; [vm_compute; reflexivity|]. split; [vm_compute; reflexivity|]. vm_compute. congruence.
Qed.
Print Assumptions C30_numpy_origin_refuted.

Theorem C30_pandas : forall fuel opt eh X p t g, NoDup (map fst (f_cols X)) -> notears_pandas fuel opt eh X p t = Ok g ->
  let d := List.length (f_cols X) in
  exists w, learned_vector opt (d * d) p w /\
    graph_of g d (fun i => nth i (map fst (f_cols X)) (LInt 0)) "learned" (fun i j => nth (i * d + j) w 0%Qc)
      (fun x => x <> 0%Qc /\ (w_threshold p < Qcabs x)%Qc).
Proof. exact pandas_result. Qed.
Print Assumptions C30_pandas.

Theorem C30_pandas_lasso : forall fuel opt eh X p t g, NoDup (map fst (f_cols X)) -> notears_pandas_lasso fuel opt eh X p t = Ok g ->
  let d := List.length (f_cols X) in
  exists w, learned_vector opt (2 * d * d) p w /\
    graph_of g d (fun i => nth i (map fst (f_cols X)) (LInt 0)) "learned" (fun i j => nth (i * d + j) w 0 - nth (d * d + (i * d + j)) w 0)%Qc
      (fun x => x <> 0%Qc /\ (w_threshold p <= Qcabs x)%Qc).
Proof. exact pandas_lasso_result. Qed.
Print Assumptions C30_pandas_lasso.

(** A data frame gives the array's structure with the names of the columns in place of the indices. *)
Theorem C30_pandas_is_numpy : forall fuel opt eh X p t g, NoDup (map fst (f_cols X)) -> notears_pandas fuel opt eh X p t = Ok g ->
  let cols := map fst (f_cols X) in
  let d := List.length (f_cols X) in
  exists tz g0, from_numpy fuel opt eh (mkMat d (f_rows X)) p tz = Ok g0 /\
    (forall i j, i < d -> j < d -> (banned tz (Z.of_nat i) (Z.of_nat j) <-> banned t (nth i cols (LInt 0)) (nth j cols (LInt 0)))) /\
    nodes g = cols /\
    (forall i j, i < d -> j < d ->
       (In (nth i cols (LInt 0), nth j cols (LInt 0)) (edges g) <-> In (LInt (Z.of_nat i), LInt (Z.of_nat j)) (edges g0)) /\
       (forall a, edge_attrs g0 (LInt (Z.of_nat i)) (LInt (Z.of_nat j)) = Some a ->
          exists a', edge_attrs g (nth i cols (LInt 0)) (nth j cols (LInt 0)) = Some a' /\ dget String.eqb a' "weight" = dget String.eqb a "weight")).
Proof. exact pandas_is_numpy. Qed.
Print Assumptions C30_pandas_is_numpy.

(** The two variants treat a weight equal to the threshold differently. *)
Example C30_threshold_differs :
  let p := mkParams 100 (Q2Qc (1 # 100)) (Q2Qc (1 # 2)) in
  let X := mkMat 2 [[Fin 1; Fin 0]]%Qc in
  let opt : optimiser := fun bnds _ _ _ _ => map (fun b => match b with (Some l, Some _) => l | (_, _) => Q2Qc (1 # 2) end) (firstn 4 bnds) ++ map (fun _ => 0%Qc) (skipn 4 bnds) in
  (exists g, from_numpy 21 opt ex_eh X p (mkTabu None None None) = Ok g /\ edges g = []) /\
  (exists g, from_numpy_lasso 21 opt ex_eh X p (mkTabu None None None) = Ok g /\ edges g = [(LInt 0, LInt 1); (LInt 1, LInt 0)]).
Proof. split; eexists; (split; [vm_compute; reflexivity|vm_compute; reflexivity]). Qed.

Example C30_hypotheses_met : exists g,
  notears_pandas 21 ex_opt ex_eh ex_frame ex_par ex_tabu = Ok g /\ nodes g = [LStr "a"; LStr "b"; LStr "c"] /\
  edge_attrs g (LStr "b") (LStr "c") = Some [("origin", AStr "learned"); ("weight", ANum (Q2Qc (1 # 2)))].
Proof.
  eexists. split; [vm_compute; reflexivity|]. split; [vm_compute; reflexivity|]. vm_compute. reflexivity.
Qed.

(** ** C31: termination *)

(** If the penalty of no point the optimiser returns is infinite, twenty-one rounds of the inner loop are
    always enough and there are at most [max_iter + 20] calls. *)
Theorem C31_dual_ascent : forall fuel n len hf (opt : optimiser) bnds tol,
  (forall r a x k, hf (opt bnds r a x k) <> PInf) -> 21 <= fuel ->
  exists s b, dual_ascent fuel n len hf opt bnds tol = Ok (s, b) /\ calls s <= n + 20.
Proof. intros fuel n len hf opt bnds tol. exact (ascent_total hf opt bnds fuel n len tol). Qed.
Print Assumptions C31_dual_ascent.

Theorem C31_numpy_partial : forall fuel opt eh X p t, (forall w, eh (m_cols X) w <> PInf) -> 21 <= fuel ->
  from_numpy fuel opt eh X p t <> Err OutOfFuel /\ from_numpy_lasso fuel opt eh X p t <> Err OutOfFuel.
Proof. exact numpy_terminates. Qed.
Print Assumptions C31_numpy_partial.

(** The optimiser is not called after call number [max_iter + 20]: what it would answer does not matter. *)
Theorem C31_calls_partial : forall fuel (opt opt' : optimiser) eh X p t, (forall w, eh (m_cols X) w <> PInf) -> 21 <= fuel ->
  (forall bnds r a x k, k < max_iter p + 20 -> opt bnds r a x k = opt' bnds r a x k) ->
  from_numpy fuel opt eh X p t = from_numpy fuel opt' eh X p t /\
  from_numpy_lasso fuel opt eh X p t = from_numpy_lasso fuel opt' eh X p t.
Proof. exact numpy_calls. Qed.
Print Assumptions C31_calls_partial.

(** Missing above, and false: finite optimiser results whose penalty overflows to infinity are fetched again
    for ever. *)
Theorem C31_refuted : exists opt eh X p t, respects_bounds opt /\
  forall fuel, from_numpy fuel opt eh X p t = Err OutOfFuel.
Proof.
  exists ex_opt, (fun _ _ => PInf), (mkMat 2 [[Fin 1; Fin 0]]%Qc), ex_par, (mkTabu None None None).
  split; [apply C29_hypotheses_met|]. intros fuel. unfold from_numpy.
  change (max_iter ex_par) with (S 99). rewrite ascent_diverges by auto. reflexivity.
Qed.
Print Assumptions C31_refuted.

(** The bound is attained: a penalty that never falls keeps raising rho twenty times. *)
Example C31_bound_attained : exists s b,
  dual_ascent 21 3 1 (fun _ => Fin 1%Qc) (fun _ _ _ x _ => x) [free] (Q2Qc (1 # 100)) = Ok (s, b) /\ calls s = 21 /\ b = true.
Proof. eexists _, _. split; [vm_compute; reflexivity|]. vm_compute. auto. Qed.
