(** * FirstAnswer: the first question of the learners, and when its answer is the result. *)
From Coq Require Import List Bool Arith ZArith Lia String QArith Qcanon Reals.
From Coquelicot Require Import Coquelicot.
From Verif Require Import Base QcX Digraph SmModel SmProofs NotearsModel NotearsProofs NotearsThms TransModel MapperModel DynoModel DynoProofs DynoThms AcycLink.
From Verif Require Import FitLink FitDyno.
From Verif Require TorchModel TorchResult TorchExact.
Import ListNotations.
Local Open Scope string_scope.
Local Open Scope list_scope.
Local Open Scope nat_scope.

(** ** Specification *)

(** One bound per weight: unrestricted when the edge may be learned, zero otherwise. *)
Definition plain_question (d : nat) (may : nat -> nat -> Prop) (bs : list bound) : Prop :=
  List.length bs = d * d /\ forall i j, i < d -> j < d -> let b := nth (i * d + j) bs (None, None) in
    (may i j -> b = (None, None)) /\ (~ may i j -> b = (Some 0%Qc, Some 0%Qc)).

(** Two bounds per weight, for the positive and the negative part: not negative, or zero. *)
Definition lasso_question (d : nat) (may : nat -> nat -> Prop) (bs : list bound) : Prop :=
  List.length bs = 2 * (d * d) /\ forall s i j, s < 2 -> i < d -> j < d -> let b := nth (s * (d * d) + (i * d + j)) bs (None, None) in
    (may i j -> b = (Some 0%Qc, None)) /\ (~ may i j -> b = (Some 0%Qc, Some 0%Qc)).

(** The same for every lag up to [p]. *)
Definition dyn_question (d p : nat) (may : nat -> nat -> nat -> Prop) (bs : list bound) : Prop :=
  List.length bs = 2 * (p + 1) * (d * d) /\ forall k s i j, k <= p -> s < 2 -> i < d -> j < d -> let b := nth ((2 * k + s) * (d * d) + (i * d + j)) bs (None, None) in
    (may k i j -> b = (Some 0%Qc, None)) /\ (~ may k i j -> b = (Some 0%Qc, Some 0%Qc)).

(** ** The bounds *)
Lemma plain_asks t d : plain_question d (open_edge t Z.of_nat) (bnds_matrix t free d).
Proof.
  split; [apply bnds_length|]. intros i j Hi Hj b. subst b. rewrite bnds_entry, bnd_ok by auto. destruct (okb t i j) eqn:O.
  - apply okb_open in O. split; [reflexivity|contradiction].
  - apply okb_closed in O. split; [contradiction|reflexivity].
Qed.
Lemma lasso_asks t d : lasso_question d (open_edge t Z.of_nat) (bnds_matrix t nonneg d ++ bnds_matrix t nonneg d).
Proof.
  split; [rewrite app_length, !bnds_length; lia|]. intros s i j Hs Hi Hj b. pose proof (index_lt d i j Hi Hj) as Hx.
  assert (E : b = bnd t nonneg i j).
  { subst b. assert (s = 0 \/ s = 1) as [-> | ->] by lia.
    - replace (0 * (d * d) + (i * d + j)) with (i * d + j) by lia. rewrite app_nth1 by (rewrite bnds_length; lia). apply bnds_entry; auto.
    - rewrite app_nth2 by (rewrite bnds_length; lia). rewrite bnds_length. replace (1 * (d * d) + (i * d + j) - d * d) with (i * d + j) by lia. apply bnds_entry; auto. }
  rewrite E, bnd_ok. destruct (okb t i j) eqn:O.
  - apply okb_open in O. split; [reflexivity|contradiction].
  - apply okb_closed in O. split; [contradiction|reflexivity].
Qed.
Lemma dyn_asks t d p : dyn_question d p (open_lag t Z.of_nat) (dbnds t d p).
Proof.
  split; [rewrite dbnds_length; lia|]. intros k s i j Hk Hs Hi Hj b.
  assert (E : b = dbnd t k i j).
  { subst b. destruct (dbnds_nth t d p k i j (None, None) Hk Hi Hj) as [A B]. assert (s = 0 \/ s = 1) as [-> | ->] by lia; [rewrite Nat.add_0_r|]; assumption. }
  rewrite E, dbnd_ok. destruct (okd t k i j) eqn:O.
  - apply okd_open in O. split; [reflexivity|contradiction].
  - apply okd_closed in O. split; [contradiction|reflexivity].
Qed.

(** ** The loop *)
Lemma first_inner fuel hf opt bnds n x s : hf (opt bnds 1%Qc (Fin 0%Qc) (repeat 0%Qc n) 0) = Fin x -> inner fuel hf opt bnds (start n) = Ok s ->
  s = mkSt 1%Qc (Fin 0%Qc) PInf (Fin x) (repeat 0%Qc n) (opt bnds 1%Qc (Fin 0%Qc) (repeat 0%Qc n) 0) 1.
Proof.
  intros E H. destruct fuel as [|f].
  - cbn [inner] in H. unfold start in H. cbn [rho h_cur h_new is_pinf] in H. replace (qlt 1 rho_max) with true in H by (vm_compute; reflexivity). rewrite orb_true_r in H. discriminate.
  - cbn [inner] in H. unfold start in H. cbn [rho h_cur h_new is_pinf alpha w_est calls] in H. replace (qlt 1 rho_max) with true in H by (vm_compute; reflexivity). rewrite orb_true_r in H.
    cbn [andb] in H. rewrite E in H.
    assert (Fq : flt (fscale quarter PInf) (Fin x) = false) by (unfold fscale; vm_compute; reflexivity). rewrite Fq in H.
    destruct f; cbn [inner rho h_cur h_new is_pinf] in H; rewrite Fq in H; cbn [orb] in H; rewrite andb_false_r in H; injection H as <-; reflexivity.
Qed.

Lemma first_ascent fuel n hf opt bnds tol len x s b : 0 < n -> let w := opt bnds 1%Qc (Fin 0%Qc) (repeat 0%Qc len) 0 in
  hf w = Fin x -> (x <= tol)%Qc \/ n = 1 -> dual_ascent fuel n len hf opt bnds tol = Ok (s, b) ->
  w_est s = w /\ (b = true <-> (tol < x)%Qc).
Proof.
  intros Hn w E C H. unfold dual_ascent in H. destruct n as [|m]; [lia|]. cbn [outer] in H. apply bind_ok in H as (s1 & E1 & H).
  apply (first_inner _ _ _ _ _ x) in E1; [|exact E]. subst s1. cbn [h_cur h_new w_new rho alpha calls] in H.
  destruct (fle (Fin x) (Fin tol)) eqn:L.
  - injection H as <- <-. split; [reflexivity|]. cbn in L. apply qle_iff in L. split; [discriminate|]. intros Q. exfalso. exact (Qclt_not_le _ _ Q L).
  - cbn in L. apply qle_false in L. destruct C as [C|C]; [exfalso; exact (Qclt_not_le _ _ L C)|]. injection C as ->. injection H as <- <-. split; [reflexivity|]. split; auto. intros Q. cbn. apply qlt_iff. exact Q.
Qed.

(** ** The learners *)
Definition decided (p : params) (x : Qc) : Prop := (x <= h_tol p)%Qc \/ max_iter p = 1.

Theorem first_numpy fuel opt eh X p t g b : 0 < max_iter p -> from_numpy fuel opt eh X p t = Ok g -> numpy_warns fuel opt eh X p t = Ok b ->
  let d := m_cols X in exists bs, plain_question d (open_edge t Z.of_nat) bs /\
    let w := opt bs 1%Qc (Fin 0%Qc) (repeat 0%Qc (d * d)) 0 in
    forall x, eh d w = Fin x -> decided p x ->
      graph_of g d node "unknown" (fun i j => nth (i * d + j) w 0%Qc) (keep_gt (w_threshold p)) /\ (b = true <-> (h_tol p < x)%Qc).
Proof.
  intros Hm H Wn d. exists (bnds_matrix t free d). split; [apply plain_asks|]. intros w x Ex C.
  unfold from_numpy in H. fold d in H. destruct (all_finite X); cbn [negb] in H; [|discriminate]. destruct (m_size X =? 0); [discriminate|].
  apply bind_ok in H as ([s b'] & E & H). cbn [fst] in H. unfold numpy_warns in Wn. fold d in Wn. rewrite E in Wn. cbn [bind snd] in Wn. injection Wn as <-.
  destruct (first_ascent _ _ _ _ _ _ _ _ _ _ Hm Ex C E) as [Ew Eb]. split; [|exact Eb]. rewrite Ew in H. eapply matrix_graph_of; [exact H|].
  intros i j Hi Hj. rewrite cut_le_entry. unfold keep_gt, entry.
  destruct (qle _ _) eqn:Q.
  + apply qle_iff in Q. split; [|intros [_ X1]; exfalso; apply (Qclt_not_le _ _ X1); auto].
    split; [congruence|]. intros [_ X1]. exfalso. apply (Qclt_not_le _ _ X1); auto.
  + apply qle_false in Q. tauto.
Qed.

Theorem first_lasso fuel opt eh X p t g b : 0 < max_iter p -> from_numpy_lasso fuel opt eh X p t = Ok g -> numpy_lasso_warns fuel opt eh X p t = Ok b ->
  let d := m_cols X in exists bs, lasso_question d (open_edge t Z.of_nat) bs /\
    let w := opt bs 1%Qc (Fin 0%Qc) (repeat 0%Qc (2 * (d * d))) 0 in
    forall x, eh d (lasso_matrix d w) = Fin x -> decided p x ->
      graph_of g d node "unknown" (fun i j => nth (i * d + j) w 0 - nth (d * d + (i * d + j)) w 0)%Qc (keep_ge (w_threshold p)) /\ (b = true <-> (h_tol p < x)%Qc).
Proof.
  intros Hm H Wn d. exists (bnds_matrix t nonneg d ++ bnds_matrix t nonneg d). split; [apply lasso_asks|]. intros w x Ex C.
  unfold from_numpy_lasso in H. fold d in H. destruct (all_finite X); cbn [negb] in H; [|discriminate]. destruct (m_size X =? 0); [discriminate|].
  apply bind_ok in H as ([s b'] & E & H). cbn [fst] in H. unfold numpy_lasso_warns in Wn. fold d in Wn. rewrite E in Wn. cbn [bind snd] in Wn. injection Wn as <-.
  replace (2 * d * d) with (2 * (d * d)) in E by lia.
  destruct (first_ascent _ _ (fun w => eh d (lasso_matrix d w)) _ _ _ _ _ _ _ Hm Ex C E) as [Ew Eb]. split; [|exact Eb]. rewrite Ew in H.
  match type of H with sm_of_matrix _ (cut_lt _ (lasso_matrix d ?v)) = _ => change v with w in H end.
  assert (L : List.length (lasso_matrix d w) = d * d).
  { unfold sm_of_matrix in H. rewrite cut_lt_length in H. destruct (_ =? _) eqn:L; [|discriminate]. apply Nat.eqb_eq; auto. }
  eapply matrix_graph_of; [exact H|]. intros i j Hi Hj. rewrite cut_lt_entry, lasso_entry by auto. unfold keep_ge, diff_entry.
  destruct (qlt _ _) eqn:Q.
  + apply qlt_iff in Q. split; [|intros [_ X1]; exfalso; apply (Qclt_not_le _ _ Q); auto].
    split; [congruence|]. intros [_ X1]. exfalso. apply (Qclt_not_le _ _ Q); auto.
  + apply qlt_false in Q. tauto.
Qed.

Lemma plain_question_ext d may may' bs : (forall i j, i < d -> j < d -> (may i j <-> may' i j)) -> plain_question d may' bs -> plain_question d may bs.
Proof. intros H [L Q]. split; [exact L|]. intros i j Hi Hj b. subst b. destruct (Q i j Hi Hj) as [A B]. split; intros M; [apply A|apply B]; rewrite <- H; auto. Qed.
Lemma lasso_question_ext d may may' bs : (forall i j, i < d -> j < d -> (may i j <-> may' i j)) -> lasso_question d may' bs -> lasso_question d may bs.
Proof. intros H [L Q]. split; [exact L|]. intros s i j Hs Hi Hj b. subst b. destruct (Q s i j Hs Hi Hj) as [A B]. split; intros M; [apply A|apply B]; rewrite <- H; auto. Qed.

Theorem first_pandas fuel opt eh X p t g b : 0 < max_iter p -> NoDup (map fst (f_cols X)) -> notears_pandas fuel opt eh X p t = Ok g ->
  pandas_warns (fun M tz => numpy_warns fuel opt eh M p tz) X t = Ok b ->
  let d := List.length (f_cols X) in let name := col_name (map fst (f_cols X)) in exists bs, plain_question d (open_edge t name) bs /\
    let w := opt bs 1%Qc (Fin 0%Qc) (repeat 0%Qc (d * d)) 0 in
    forall x, eh d w = Fin x -> decided p x ->
      graph_of g d name "learned" (fun i j => nth (i * d + j) w 0%Qc) (keep_gt (w_threshold p)) /\ (b = true <-> (h_tol p < x)%Qc).
Proof.
  intros Hm ND H Wn d name. destruct (from_pandas_graph _ X t g ND H) as (tz & g0 & Et & E0 & G). fold d in E0, G.
  unfold pandas_warns in Wn. rewrite Et in Wn. cbn [bind] in Wn. rewrite map_length in Wn. fold d in Wn.
  destruct (first_numpy _ _ _ _ _ _ _ _ Hm E0 Wn) as (bs & Q & K). cbn [m_cols] in *. exists bs. split.
  - apply (plain_question_ext d _ (open_edge tz Z.of_nat)); [|exact Q]. intros i j Hi Hj. symmetry. apply open_named; auto; rewrite map_length; auto.
  - intros x Ex C. destruct (K x Ex C) as [Gx Bx]. split; [exact (G _ _ _ Gx)|exact Bx].
Qed.

Theorem first_pandas_lasso fuel opt eh X p t g b : 0 < max_iter p -> NoDup (map fst (f_cols X)) -> notears_pandas_lasso fuel opt eh X p t = Ok g ->
  pandas_warns (fun M tz => numpy_lasso_warns fuel opt eh M p tz) X t = Ok b ->
  let d := List.length (f_cols X) in let name := col_name (map fst (f_cols X)) in exists bs, lasso_question d (open_edge t name) bs /\
    let w := opt bs 1%Qc (Fin 0%Qc) (repeat 0%Qc (2 * (d * d))) 0 in
    forall x, eh d (lasso_matrix d w) = Fin x -> decided p x ->
      graph_of g d name "learned" (fun i j => nth (i * d + j) w 0 - nth (d * d + (i * d + j)) w 0)%Qc (keep_ge (w_threshold p)) /\ (b = true <-> (h_tol p < x)%Qc).
Proof.
  intros Hm ND H Wn d name. destruct (from_pandas_graph _ X t g ND H) as (tz & g0 & Et & E0 & G). fold d in E0, G.
  unfold pandas_warns in Wn. rewrite Et in Wn. cbn [bind] in Wn. rewrite map_length in Wn. fold d in Wn.
  destruct (first_lasso _ _ _ _ _ _ _ _ Hm E0 Wn) as (bs & Q & K). cbn [m_cols] in *. exists bs. split.
  - apply (lasso_question_ext d _ (open_edge tz Z.of_nat)); [|exact Q]. intros i j Hi Hj. symmetry. apply open_named; auto; rewrite map_length; auto.
  - intros x Ex C. destruct (K x Ex C) as [Gx Bx]. split; [exact (G _ _ _ Gx)|exact Bx].
Qed.

Theorem first_dynamic fuel opt eh X Xlags par t g b : 0 < max_iter par -> learn_numpy_dynamic fuel opt eh X Xlags par t = Ok (g, b) ->
  let d := m_cols X in let p := m_cols Xlags / d in exists bs, dyn_question d p (open_lag t Z.of_nat) bs /\
    let v := opt bs 1%Qc (Fin 0%Qc) (repeat 0%Qc (2 * (p + 1) * (d * d))) 0 in
    forall wa x, reshape_wa v d p = Ok wa -> eh d (fst wa) = Fin x -> decided par x ->
      dgraph_of g d p dname "unknown" (effect d v) (keep_ge (w_threshold par)) /\ (b = true <-> (h_tol par < x)%Qc).
Proof.
  intros Hm H d p. exists (dbnds t d p). split; [apply dyn_asks|]. intros v wa x Re Ex C.
  destruct (numpy_dynamic_states _ _ _ _ _ _ _ _ _ H) as (_ & _ & v' & G & _ & _ & (s & Ea & Ev) & _). fold d p in G, Ea.
  assert (Eh : dyn_h eh d p v = Fin x) by (unfold dyn_h; rewrite Re; exact Ex).
  destruct (first_ascent _ _ _ _ _ _ _ _ _ _ Hm Eh C Ea) as [Ew Eb]. rewrite Ew in Ev. rewrite Ev in G. split; [exact G|exact Eb].
Qed.

(** ** torch *)
Lemma first_torch_fit n fuel hf opt bnds cur x v b k : 0 < n -> let w := opt bnds 1%Qc (Fin 0%Qc) cur 0 in hf w = Fin x ->
  (x <= Q2Qc (1 # 100000000))%Qc \/ n = 1 -> TorchModel.torch_fit n fuel hf opt bnds 1%Qc (Fin 0%Qc) PInf cur 0 = Ok (v, b, k) -> v = w /\ (b = true <-> (Q2Qc (1 # 100000000) < x)%Qc).
Proof.
  intros Hn w E C H. destruct n as [|m]; [lia|]. cbn [TorchModel.torch_fit] in H. apply bind_ok in H as ([[[r' h'] cur'] k'] & E1 & H). cbn beta iota in H.
  assert (Fq : flt (fscale quarter PInf) (Fin x) = false) by (unfold fscale; vm_compute; reflexivity).
  assert (R0 : qlt 1 TorchModel.torch_rho_max = true) by (vm_compute; reflexivity).
  assert (X : (r', h', cur', k') = (1%Qc, Fin x, w, 1)).
  { destruct fuel as [|f]; cbn [TorchModel.torch_while is_pinf] in E1; rewrite R0, orb_true_r in E1; cbn [andb] in E1; [discriminate|]. fold w in E1. rewrite E, Fq in E1.
    destruct f; cbn [TorchModel.torch_while is_pinf] in E1; rewrite R0, Fq in E1; cbn [andb orb] in E1; injection E1 as <- <- <- <-; reflexivity. }
  injection X as -> -> -> ->. replace (qle TorchModel.torch_rho_max 1) with false in H by (vm_compute; reflexivity). rewrite orb_false_r in H.
  destruct (fle (Fin x) (Fin TorchModel.torch_h_tol)) eqn:L.
  - injection H as <- <- <-. split; [reflexivity|]. cbn in L. apply qle_iff in L. split; [discriminate|]. intros Q. exfalso. exact (Qclt_not_le _ _ Q L).
  - cbn in L. apply qle_false in L. destruct C as [C|C]; [exfalso; exact (Qclt_not_le _ _ L C)|]. injection C as ->. injection H as <- <- <-. split; [reflexivity|]. split; auto. intros Q. cbn. apply qlt_iff. exact Q.
Qed.

Theorem first_torch fuel opt eh act grad rnd X schema p t l : 0 < TorchModel.tp_max_iter p -> TorchModel.torch_numpy fuel opt eh act grad rnd X schema p t = Ok l ->
  let d := nth 0 (TorchModel.l_dims l) 0 in let m := nth 1 (TorchModel.l_dims l) 0 in
  exists bs, TorchExact.torch_asks X schema p t l bs /\ let v := opt bs 1%Qc (Fin 0%Qc) (repeat 0%Qc (d * m * d + (if TorchModel.tp_bias p then d * m else 0)) ++ rnd) 0 in
    forall x, eh (TorchModel.h_size (TorchModel.l_dtypes l)) (TorchModel.h_matrix (TorchModel.l_dtypes l) d m v) = Fin x ->
      (x <= Q2Qc (1 # 100000000))%Qc \/ TorchModel.tp_max_iter p = 1 ->
      TorchModel.l_params l = v /\ (TorchModel.l_warned l = true <-> (Q2Qc (1 # 100000000) < x)%Qc).
Proof.
  intros Hm H d m. destruct (TorchResult.torch_numpy_inv _ _ _ _ _ _ _ _ _ _ _ H) as (ks & dts & X' & t' & Ek & Ep & O).
  destruct (TorchResult.oc_fit _ _ _ _ _ _ _ _ _ _ _ _ _ O) as (k & Ef). unfold TorchResult.fit_call in Ef. cbv zeta in Ef.
  rewrite <- (TorchResult.oc_dtypes _ _ _ _ _ _ _ _ _ _ _ _ _ O) in Ef.
  pose proof (TorchResult.oc_dims _ _ _ _ _ _ _ _ _ _ _ _ _ O) as Ed. rewrite <- Ed in Ef.
  assert (E0 : nth 0 (TorchModel.l_dims l) 0 = TorchModel.width X') by (rewrite Ed; apply TorchResult.net_dims_0).
  pose proof (TorchExact.outcome_asks _ _ _ _ _ _ _ _ _ _ _ _ _ _ _ Ek Ep O) as As. cbv zeta in As.
  subst d m. rewrite !E0. eexists. split; [exact As|]. intros v x Ex C.
  exact (first_torch_fit _ _ (fun v => eh (TorchModel.h_size (TorchModel.l_dtypes l)) (TorchModel.h_matrix (TorchModel.l_dtypes l) (TorchModel.width X') (nth 1 (TorchModel.l_dims l) 0) v)) _ _ _ _ _ _ _ Hm Ex C Ef).
Qed.
