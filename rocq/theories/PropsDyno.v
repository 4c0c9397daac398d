(** * PropsDyno: properties C34 and C35 and the dynamic parts of C30, C31 and C33, structure learning with DYNOTEARS. *)
From Coq Require Import List Bool Arith ZArith Lia String QArith Qcanon Qreals Reals Relations Sorted.
From Verif Require Import Base Names QcX Digraph SmModel NotearsModel NotearsProofs NotearsThms TransModel TransThms DynoModel DynoProofs DynoThms AcycModel AcycLink DynoLoss PropsNotears PropsTrans PropsAcyc.
Import ListNotations.
Local Open Scope string_scope.
Local Open Scope list_scope.
Local Open Scope nat_scope.

(** ** C34: banned edges are never learned *)

(** Every edge goes from a variable at some lag to a current variable, not from a current variable to itself,
    and is not banned. *)
Theorem C34_numpy : forall fuel opt eh X Xlags par t g, respects_bounds opt -> from_numpy_dynamic fuel opt eh X Xlags par t = Ok g ->
  let d := m_cols X in
  forall u v, In (u, v) (edges g) ->
    exists k i j, k <= m_cols Xlags / d /\ i < d /\ j < d /\ u = LStr (lag_name (dec i) k) /\ v = LStr (lag_name (dec j) 0) /\
      ~ (k = 0 /\ i = j) /\ ~ dbanned t k (Z.of_nat i) (Z.of_nat j).
Proof. exact numpy_dynamic_no_ban. Qed.
Print Assumptions C34_numpy.

Theorem C34_pandas : forall fuel opt eh l p par t g, respects_bounds opt -> NoDup (variables l) ->
  from_pandas_dynamic fuel opt eh l p par t = Ok g ->
  forall u v, In (u, v) (edges g) ->
    exists k a b, k <= p /\ In a (variables l) /\ In b (variables l) /\ u = LStr (lag_name a k) /\ v = LStr (lag_name b 0) /\
      ~ (k = 0 /\ a = b) /\ ~ dbanned t k a b.
Proof. exact pandas_dynamic_no_ban. Qed.
Print Assumptions C34_pandas.

(** Two series.  The effect of u on v in the same period and that of v at lag 1 on u are banned.  The optimiser
    finds positive effects wherever it may. *)
Definition ex_dtabu : dtabu string := mkDtabu (Some [(0%Z, "u", "v"); (1%Z, "v", "u")]) None None.
Definition ex_dopt : optimiser := fun bnds _ _ _ _ =>
  map (fun ib => match snd ib with (Some l, Some _) => l | (Some l, None) => if fst ib mod 8 <? 4 then (l + Q2Qc (1 # 2))%Qc else l | (None, Some u) => u | (None, None) => 0%Qc end)
      (combine (seq 0 (List.length bnds)) bnds).

Lemma ex_dopt_respects : respects_bounds ex_dopt.
Proof.
  intros bnds r a x k F. unfold ex_dopt.
  match goal with |- Forall2 _ _ (map ?f _) => set (h := f) end. generalize 0. induction F as [|b bnds (y & Hy) F IH]; intros s; [apply Forall2_nil|].
  cbn [List.length seq combine map]. apply Forall2_cons; [|apply IH].
  unfold h. cbn [fst snd]. destruct b as [[l|] [u|]]; [| |split; cbn in *; intros z [= <-]; apply Qcle_refl|split; cbn; congruence].
  - split; cbn in *; intros z [= <-]; try apply Qcle_refl. apply Qcle_trans with y; apply Hy; auto.
  - destruct (_ <? _); split; cbn in *; intros z E; try discriminate; injection E as <-; try apply Qcle_refl. qlra.
Qed.

Example C34_hypotheses_met : respects_bounds ex_dopt /\ NoDup (variables [s1; s2]) /\
  exists g, from_pandas_dynamic 21 ex_dopt ex_eh [s1; s2] 1 ex_par ex_dtabu = Ok g /\
    nodes g = [LStr "u_lag0"; LStr "u_lag1"; LStr "v_lag0"; LStr "v_lag1"] /\
    edges g = [(LStr "u_lag1", LStr "u_lag0"); (LStr "u_lag1", LStr "v_lag0"); (LStr "v_lag0", LStr "u_lag0"); (LStr "v_lag1", LStr "v_lag0")].
Proof.
  split; [exact ex_dopt_respects|]. split; [repeat constructor; cbn; intuition congruence|].
  eexists. split; [vm_compute; reflexivity|]. split; vm_compute; reflexivity.
Qed.

(** ** C35: lagged names are faithful *)

(** The nodes are the variables at each lag, all different; the edge from variable i at lag k to variable j is
    there exactly when the estimated effect is above the threshold, and carries it. *)
Theorem C35_pandas : forall fuel opt eh l p par t g, NoDup (variables l) -> from_pandas_dynamic fuel opt eh l p par t = Ok g ->
  let names := variables l in
  let d := List.length names in
  nodes g = flat_map (fun c => map (fun k => LStr (lag_name c k)) (seq 0 (p + 1))) names /\ NoDup (nodes g) /\
  exists v, learned_vector opt (2 * (p + 1) * (d * d)) par v /\
    dgraph_of g d p (fun i k => LStr (lag_name (nth i names "") k)) "learned" (effect d v) (fun x => x <> 0%Qc /\ (w_threshold par <= Qcabs x)%Qc).
Proof. exact pandas_dynamic_result. Qed.
Print Assumptions C35_pandas.

(** What "estimated effect" means: the data term of the objective is the mean squared error of predicting each
    variable at each time with p predecessors from the effects and the values at that time and at lags 1 to p. *)
Theorem C35_effects : forall l p v X Xlags q, let names := variables l in
  1 <= p -> acceptable names l -> (forall t, In t l -> well_formed t /\ strict t) ->
  ddt_transform (mkDdt p (Some names) false) l = Ok (Arrays X Xlags) ->
  dyn_loss (List.length names) p X Xlags v = Ok q ->
  q = (Q2Qc (1 # 2) / Q2Qc (inject_Z (Z.of_nat (List.length (expected p l)))) * squared_error names p v (expected p l))%Qc.
Proof. exact loss_is_autoregression. Qed.
Print Assumptions C35_effects.

Theorem C35_names_distinct : forall c k c' k', lag_name c k = lag_name c' k' -> c = c' /\ k = k'.
Proof. exact lag_name_inj. Qed.
Print Assumptions C35_names_distinct.

Example C35_effects_met : exists X Xlags, ddt_transform (mkDdt 1 (Some (variables [s1; s2])) false) [s1; s2] = Ok (Arrays X Xlags) /\
  acceptable (variables [s1; s2]) [s1; s2] /\ (forall t, In t [s1; s2] -> well_formed t /\ strict t) /\
  (* u is predicted from its last value, v is not predicted *)
  let v := [0;0;0;0; 0;0;0;0; 1;0;0;0; 0;0;0;0]%Qc in
  exists q, dyn_loss 2 1 X Xlags v = Ok q /\ q = (Q2Qc (1 # 2) / z 4 * (z 1 + z 1 + z 1 + z 1 + z 21 * z 21 + z 22 * z 22 + z 24 * z 24 + z 41 * z 41))%Qc.
Proof.
  do 2 eexists. split; [vm_compute; reflexivity|]. split; [exact accept12|]. split; [exact wf12|]. cbv zeta. eexists.
  split; [unfold dyn_loss; cbn [bind reshape_wa List.length Nat.eqb Nat.mul plus]; reflexivity|]. apply Qc_is_canon. vm_compute. reflexivity.
Qed.

(** ** C30 for arrays: as C35 but for the origin *)
Theorem C30_numpy_dynamic_partial : forall fuel opt eh X Xlags par t g, from_numpy_dynamic fuel opt eh X Xlags par t = Ok g ->
  let d := m_cols X in
  let p := m_cols Xlags / d in
  nodes g = map LStr (lag_cols d p) /\ NoDup (nodes g) /\
  exists v, learned_vector opt (2 * (p + 1) * (d * d)) par v /\
    dgraph_of g d p (fun i k => LStr (lag_name (dec i) k)) "unknown" (effect d v) (fun x => x <> 0%Qc /\ (w_threshold par <= Qcabs x)%Qc).
Proof. exact numpy_dynamic_result. Qed.
Print Assumptions C30_numpy_dynamic_partial.

Definition ex_dX : mat := mkMat 2 [[Fin 1; Fin 0]; [Fin 0; Fin 1]]%Qc.
Theorem C30_numpy_dynamic_origin_refuted : exists opt eh X Xlags p t g u v a,
  respects_bounds opt /\ from_numpy_dynamic 21 opt eh X Xlags p t = Ok g /\ edge_attrs g u v = Some a /\ dget String.eqb a "origin" <> Some (AStr "learned").
Proof.
  exists ex_dopt, ex_eh, ex_dX, ex_dX, ex_par, (mkDtabu None None None). eexists. exists (LStr "0_lag1"), (LStr "1_lag0"). eexists.
  split; [exact ex_dopt_respects|]. split; [vm_compute; reflexivity|]. split; [vm_compute; reflexivity|]. vm_compute. congruence.
Qed.
Print Assumptions C30_numpy_dynamic_origin_refuted.

(** ** C31: termination *)
Theorem C31_dynamic_partial : forall fuel opt eh X Xlags par t, (forall w, eh (m_cols X) w <> PInf) -> 21 <= fuel ->
  from_numpy_dynamic fuel opt eh X Xlags par t <> Err OutOfFuel.
Proof. exact numpy_dynamic_terminates. Qed.
Print Assumptions C31_dynamic_partial.

(** ** C33: a small penalty and a threshold give an acyclic structure; lagged effects never close a cycle *)
Theorem C33_numpy_dynamic : forall fuel opt eh X Xlags par t g delta,
  learn_numpy_dynamic fuel opt eh X Xlags par t = Ok (g, false) ->
  (forall bnds r a x k wa, reshape_wa (opt bnds r a x k) (m_cols X) (m_cols Xlags / m_cols X) = Ok wa -> within delta eh (m_cols X) (fst wa)) ->
  (0 <= w_threshold par)%Qc ->
  excludes (m_cols X) (realq (w_threshold par)) (realq (h_tol par) + delta) -> acyclic (edges g).
Proof. exact numpy_dynamic_acyclic. Qed.
Print Assumptions C33_numpy_dynamic.

Theorem C33_pandas_dynamic : forall fuel opt eh l p par t g delta, NoDup (variables l) ->
  learn_pandas_dynamic fuel opt eh l p par t = Ok (g, false) ->
  (forall bnds r a x k wa, reshape_wa (opt bnds r a x k) (List.length (variables l)) p = Ok wa -> within delta eh (List.length (variables l)) (fst wa)) ->
  (0 <= w_threshold par)%Qc ->
  excludes (List.length (variables l)) (realq (w_threshold par)) (realq (h_tol par) + delta) -> acyclic (edges g).
Proof. exact pandas_dynamic_acyclic. Qed.
Print Assumptions C33_pandas_dynamic.

(** An optimiser that finds the effect of 1 on 0 in the same period and of each variable on itself. *)
Definition ex_dopt33 : optimiser := fun _ _ _ _ _ => [0;0;Q2Qc (1#2);0; 0;0;0;0; 1;0;0;1; 0;0;0;0]%Qc.
Example C33_dynamic_hypotheses_met :
  (exists g, learn_numpy_dynamic 21 ex_dopt33 (fun _ _ => Fin 0%Qc) ex_dX ex_dX ex_par33 (mkDtabu None None None) = Ok (g, false) /\
     edges g = [(LStr "1_lag0", LStr "0_lag0"); (LStr "0_lag1", LStr "0_lag0"); (LStr "1_lag1", LStr "1_lag0")]) /\
  (forall bnds r a x k wa, reshape_wa (ex_dopt33 bnds r a x k) 2 1 = Ok wa -> within 0 (fun _ _ => Fin 0%Qc) 2 (fst wa)) /\
  excludes 2 (realq (w_threshold ex_par33)) (realq (h_tol ex_par33) + 0).
Proof.
  split; [eexists; split; [vm_compute; reflexivity|vm_compute; reflexivity]|]. split.
  - intros bnds r a x k wa E. exists 0%Qc. split; auto. intros h H. rewrite realq_0.
    assert (W : forall i j, i < 2 -> j < 2 -> realq (entry 2 (fst wa) i j) <> 0%R -> j < i).
    { destruct wa as [w aa]. destruct (reshape_ok _ _ _ _ _ E) as (_ & _ & _ & Ew & _). cbn [fst]. intros i j Hi Hj. rewrite Ew by auto.
      destruct i as [|[|i]]; [| |lia]; (destruct j as [|[|j]]; [| |lia]); intros N; try lia; exfalso; apply N; unfold realq, Q2R; vm_compute; apply Rmult_0_l. }
    assert (h = 0%R).
    { destruct (C32_exp 2 (fun i j => realq (entry 2 (fst wa) i j))) as (h0 & H0 & U & P & Z). rewrite (U h H). apply Z.
      intros i C. assert (D : forall a b, clos_trans nat (medge 2 (fun i j => realq (entry 2 (fst wa) i j))) a b -> b < a).
      { induction 1 as [u v (Hu & Hv & N)|]; [|lia]. apply W; auto. }
      apply D in C. lia. }
    subst h. rewrite Rminus_0_r, Rabs_R0. apply Rle_refl.
  - exact (proj2 (proj2 (proj2 C33_hypotheses_met))).
Qed.
