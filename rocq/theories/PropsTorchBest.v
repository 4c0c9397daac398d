(** * PropsTorchBest: the torch version of structure learning fits at least as well as any network without cycles, and converges. *)
From Coq Require Import List Bool Arith ZArith Lia String QArith Qcanon Qreals Reals Lra Relations.
From Coquelicot Require Import Coquelicot.
From Verif Require Import Base Names Digraph SmModel SmProofs SmBuild QcX NotearsModel NotearsProofs NotearsThms AcycModel AcycProofs AcycThms AcycLink
  TorchModel TorchSpec TorchProofs TorchThms TorchGraph TorchResult TorchAcyc TorchExact LossModel OrdProofs FitBound TorchBest.
From Verif Require PropsTorch LossFunc.
Import ListNotations.
Local Open Scope string_scope.
Local Open Scope list_scope.
Local Open Scope nat_scope.

(** ** C124: learning with the torch version is optimal among the allowed networks without cycles *)

(** The objective without the penalty is [cost]: the loss of C75 and the two regularisation terms of C76.
    [near_torch]: an answer of the optimiser to a penalised problem is at most [eps] above the minimum within the bounds. *)
Theorem C124_best : forall fuel opt eh act grad rnd X schema p t l ks dts X' t' odds lasso ridge eps delta,
  rectangular X -> (forall s, schema = Some s -> NoDup (map fst s)) -> schema_kinds (m_cols X) schema = Ok ks -> prepare ks (start_data X) t = Ok (dts, X', t') ->
  tabu_within (m_cols X) t -> 0 < tp_max_iter p -> torch_numpy fuel opt eh act grad rnd X schema p t = Ok l ->
  let d := nth 0 (l_dims l) 0 in let m := nth 1 (l_dims l) 0 in let size := n_params d (tp_bias p) (l_dims l) in
  let L := expanded X ks in let may := open_column L (m_cols X) t in
  let F := torch_func act (l_use_bias l) (l_dims l) (l_dtypes l) odds X' lasso ridge in let cost := F 0%R 0%R in
  near_torch d m size may F eps opt -> (forall bs r q s k, torch_close delta eh (l_dtypes l) d m (opt bs r (Fin q) s k)) ->
  List.length (l_params l) = size /\ keeps_bans d m may (l_params l) /\
  forall u b, List.length u = size -> keeps_bans d m may u -> no_cycles L (m_cols X) d m u -> cost u = Ok b ->
    exists a, cost (l_params l) = Ok a /\ (a <= b + eps)%R.
Proof.
  intros fuel opt eh act grad rnd X schema p t l ks dts X' t' odds lasso ridge eps delta R Ns Ek Ep Wi Hm E d m size L may F cost Ne Cl.
  destruct (torch_best fuel opt eh act grad rnd X schema p t l ks dts X' t' odds lasso ridge eps delta R Ns Ek Ep Wi Hm E Ne Cl) as (H1 & [H2 _] & H3 & _). auto.
Qed.
Print Assumptions C124_best.

(** The penalty of the result.  [c] is a lower bound of the objective (C76), [f0] its value for the network without weights.
    Without a warning the computed penalty is at most 1e-8, or at most sqrt (2 range / 1e15) + delta: the search also ends without a
    warning when the weight of the penalty is at its limit.  With enough iterations there is no warning. *)
Theorem C124_converges : forall fuel opt eh act grad rnd X schema p t l ks dts X' t' odds lasso ridge eps delta f0 c,
  rectangular X -> (forall s, schema = Some s -> NoDup (map fst s)) -> schema_kinds (m_cols X) schema = Ok ks -> prepare ks (start_data X) t = Ok (dts, X', t') ->
  tabu_within (m_cols X) t -> 0 < tp_max_iter p -> torch_numpy fuel opt eh act grad rnd X schema p t = Ok l ->
  let d := nth 0 (l_dims l) 0 in let m := nth 1 (l_dims l) 0 in let size := n_params d (tp_bias p) (l_dims l) in
  let F := torch_func act (l_use_bias l) (l_dims l) (l_dtypes l) odds X' lasso ridge in let cost := F 0%R 0%R in
  near_torch d m size (open_column (expanded X ks) (m_cols X) t) F eps opt -> (forall bs r q s k, torch_close delta eh (l_dtypes l) d m (opt bs r (Fin q) s k)) ->
  cost (repeat 0%Qc size) = Ok f0 -> (forall v a, cost v = Ok a -> (c <= a)%R) -> let range := (f0 + eps - c)%R in
  exists x, eh (h_size (l_dtypes l)) (h_matrix (l_dtypes l) d m (l_params l)) = Fin x /\
    (l_warned l = false -> (realq x <= / 10 ^ 8)%R \/ (realq x <= sqrt (2 * range / 10 ^ 15) + delta)%R) /\
    ((sqrt (2 * range) + delta <= 4 ^ (tp_max_iter p - 1) * / 10 ^ 8)%R -> l_warned l = false).
Proof.
  intros fuel opt eh act grad rnd X schema p t l ks dts X' t' odds lasso ridge eps delta f0 c R Ns Ek Ep Wi Hm E d m size F cost Ne Cl C0 Lc range.
  destruct (torch_best fuel opt eh act grad rnd X schema p t l ks dts X' t' odds lasso ridge eps delta R Ns Ek Ep Wi Hm E Ne Cl) as (_ & _ & _ & H4). exact (H4 f0 c C0 Lc).
Qed.
Print Assumptions C124_converges.

(** For a linear model (no hidden layers) and a threshold as in C33 a graph learned without a warning has no cycles. *)
Theorem C124_acyclic : forall fuel opt eh act grad rnd X schema p t l ks dts X' t' odds lasso ridge eps delta f0 c th,
  rectangular X -> (forall s, schema = Some s -> NoDup (map fst s)) -> schema_kinds (m_cols X) schema = Ok ks -> prepare ks (start_data X) t = Ok (dts, X', t') ->
  tabu_within (m_cols X) t -> 0 < tp_max_iter p -> torch_numpy fuel opt eh act grad rnd X schema p t = Ok l ->
  let d := nth 0 (l_dims l) 0 in let m := nth 1 (l_dims l) 0 in let size := n_params d (tp_bias p) (l_dims l) in
  let F := torch_func act (l_use_bias l) (l_dims l) (l_dtypes l) odds X' lasso ridge in let cost := F 0%R 0%R in
  near_torch d m size (open_column (expanded X ks) (m_cols X) t) F eps opt -> (forall bs r q s k, torch_close delta eh (l_dtypes l) d m (opt bs r (Fin q) s k)) ->
  cost (repeat 0%Qc size) = Ok f0 -> (forall v a, cost v = Ok a -> (c <= a)%R) -> let range := (f0 + eps - c)%R in
  linear p -> tp_threshold p = Some th -> (0 <= th)%Qc -> poly_excludes (m_cols X) (realq th) (Rmax (/ 10 ^ 8) (sqrt (2 * range / 10 ^ 15) + delta) + delta) ->
  l_warned l = false ->
  Digraph.acyclic (edges (l_graph l)).
Proof.
  intros fuel opt eh act grad rnd X schema p t l ks dts X' t' odds lasso ridge eps delta f0 c th R Ns Ek Ep Wi Hm E d m size F cost Ne Cl C0 Lc range Lp Et Ht Px Nw.
  destruct (torch_penalty_matrix _ _ _ _ _ _ _ _ _ _ _ _ R Ns Ek E Lp) as [Hs Hh].
  destruct (torch_best fuel opt eh act grad rnd X schema p t l ks dts X' t' odds lasso ridge eps delta R Ns Ek Ep Wi Hm E Ne Cl) as (_ & [_ (y & Ey & _ & Cy)] & _).
  destruct (C124_converges fuel opt eh act grad rnd X schema p t l ks dts X' t' odds lasso ridge eps delta f0 c R Ns Ek Ep Wi Hm E Ne Cl C0 Lc) as (x & Ex & Rx & _).
  assert (Le : (realq x <= Rmax (/ 10 ^ 8) (sqrt (2 * range / 10 ^ 15) + delta))%R).
  { destruct (Rx Nw) as [Le|Le]; apply Rle_trans with (1 := Le); [apply Rmax_l|apply Rmax_r]. }
  assert (y = x) as -> by (unfold d, m in *; congruence). rewrite Hs in Cy. fold d m in Cy.
  apply (torch_linear_acyclic fuel opt eh act grad rnd X schema p t l ks th (Rmax (/ 10 ^ 8) (sqrt (2 * range / 10 ^ 15) + delta) + delta)); auto.
  replace (poly_penalty (m_cols X) (fun a b => realq (var_weight (expanded X ks) l a b))) with (poly_penalty (m_cols X) (fun i j => realq (h_matrix (l_dtypes l) d m (l_params l) i j))).
  - unfold Rabs in Cy. destruct (Rcase_abs _) in Cy; lra.
  - apply LossFunc.poly_ext. intros i j _ _. rewrite <- Hh. reflexivity.
Qed.
Print Assumptions C124_acyclic.

(** Two equal columns; the edge 1 -> 0 is banned.  The best network predicts column 1 by column 0 with weight 1, and the optimiser
    finds it. *)
Definition best_X : mat := mkMat 2 [[Fin 1; Fin 1]; [Fin (- (1)); Fin (- (1))]]%Qc.
Definition best_tabu : tabu Z := mkTabu (Some [(1, 0)%Z]) None None.
Definition best_opt : optimiser := fun _ _ _ _ _ => [0; 0; 1; 0]%Qc.
Definition best_data : data := mkData 2 [[1; 1]; [- (1); - (1)]]%Qc.
Definition best_dts : list dtype := [mkDt Cont 0 [] []; mkDt Cont 1 [] []].
Definition best_F := torch_func PropsTorch.ex_act false [2; 1] best_dts (fun _ => []) best_data 0%R 0%R.

Lemma best_penalty w : poly_penalty (h_size best_dts) (fun i j => realq (h_matrix best_dts 2 1 [0; 0; w; 0]%Qc i j)) = 0%R.
Proof.
  change (h_size best_dts) with 2. rewrite (LossFunc.poly_ext 2 _ (fun i j => match i, j with 0, 1 => realq (w * w)%Qc | _, _ => 0%R end)).
  - unfold poly_penalty. cbn. lra.
  - intros i j Hi Hj. change (h_matrix best_dts 2 1 [0; 0; w; 0]%Qc i j) with (square_mat 2 1 [0; 0; w; 0]%Qc i j). rewrite square_linear.
    assert (i = 0 \/ i = 1) as [-> | ->] by lia; assert (j = 0 \/ j = 1) as [-> | ->] by lia; cbn [nth Nat.mul Nat.add]; try (replace (0 * 0)%Qc with 0%Qc by ring; apply realq_0). reflexivity.
Qed.

Lemma best_value r q w : best_F r q [0; 0; w; 0]%Qc = Ok (1 / 2 + (1 - realq w) ^ 2 / 2)%R.
Proof.
  assert (Fw : forall x y, forward PropsTorch.ex_act false [2; 1] [0; 0; w; 0]%Qc [x; y] = [0; w * x]%Qc).
  { intros x y. unfold forward. cbn [nth net_layers tl removelast combine run_layers seq map dag_units dag_w Nat.mul Nat.add n_weights n_bias]. rewrite !Qsum_cons, !Qsum_nil. apply f_equal2; [ring|]. apply f_equal2; [ring|reflexivity]. }
  unfold best_F, torch_func. cbn [width best_data rows map]. rewrite !Fw. cbn [nth]. rewrite best_penalty. cbn [total_loss best_dts mapM dist_loss dt_kind dt_idx bind rows combine map fst snd nth List.length].
  f_equal. unfold SklModel.rsum. cbn [best_data rows combine map fst snd nth List.length fold_right INR]. rewrite !realq_mult, realq_0.
  replace (realq 1) with 1%R by (unfold realq, Q2R; cbn; lra). replace (realq (- (1))) with (-1)%R by (unfold realq, Q2R; cbn; lra). replace 0.5%R with (/ 2)%R by lra. field.
Qed.

Lemma best_lower v a : best_F 0 0 v = Ok a -> (0 <= a)%R.
Proof.
  unfold best_F, torch_func. cbn [width best_data rows map]. cbv zeta.
  cbn [total_loss best_dts mapM dist_loss dt_kind dt_idx bind best_data rows combine map fst snd nth List.length]. intros [= <-].
  unfold SklModel.rsum. cbn [fold_right INR]. replace 0.5%R with (/ 2)%R by lra.
  assert (S : forall x y : R, (0 <= / 2 / (1 + 1) * (x ^ 2 + (y ^ 2 + 0)))%R) by (intros x y; pose proof (pow2_ge_0 x); pose proof (pow2_ge_0 y); lra).
  match goal with |- (0 <= ?A + (?B + 0) + _ + _ + _)%R => assert (0 <= A)%R by apply S; assert (0 <= B)%R by apply S end. lra.
Qed.

Definition best_par : tparams := mkTp None false (Some (Q2Qc (1 # 10))) 30.
Example C124_met : exists l, torch_numpy 17 best_opt PropsTorch.ex_teh PropsTorch.ex_act PropsTorch.ex_grad [] best_X None best_par best_tabu = Ok l /\
  schema_kinds 2 None = Ok [(0, Cont); (1, Cont)] /\ (exists t', prepare [(0, Cont); (1, Cont)] (start_data best_X) best_tabu = Ok (best_dts, best_data, t')) /\
  tabu_within 2 best_tabu /\ l_dims l = [2; 1] /\ l_dtypes l = best_dts /\ edges (l_graph l) = [(LInt 0, LInt 1)] /\
  near_torch 2 1 4 (open_column (expanded best_X [(0, Cont); (1, Cont)]) 2 best_tabu) best_F 0 best_opt /\
  (forall bs r q s k, torch_close 0 PropsTorch.ex_teh best_dts 2 1 (best_opt bs r (Fin q) s k)) /\
  best_F 0 0 [0; 0; 0; 0]%Qc = Ok 1%R /\ (forall v a, best_F 0 0 v = Ok a -> (0 <= a)%R) /\ best_F 0 0 (l_params l) = Ok (1 / 2)%R /\
  (sqrt (2 * (1 + 0 - 0)) + 0 <= 4 ^ (tp_max_iter best_par - 1) * / 10 ^ 8)%R /\ l_warned l = false /\
  linear best_par /\ poly_excludes 2 (realq (Q2Qc (1 # 10))) (Rmax (/ 10 ^ 8) (sqrt (2 * (1 + 0 - 0) / 10 ^ 15) + 0) + 0).
Proof.
  eexists. split; [vm_compute; reflexivity|]. split; [reflexivity|]. split; [eexists; vm_compute; reflexivity|]. split.
  { split; [intros l u v [= <-] [[= <- <-]|[]]; lia|intros l u [[=]|[=]]]. }
  split; [reflexivity|]. split; [reflexivity|]. split; [reflexivity|]. split; [|split; [|split; [|split; [exact best_lower|split; [|split; [|split; [reflexivity|split; [reflexivity|]]]]]]]].
  - intros bs _ r q s k _ _ w. subst w. unfold best_opt. split; [reflexivity|].
    assert (No : forall i j, i < 2 -> j < 2 -> ~ open_column (expanded best_X [(0, Cont); (1, Cont)]) 2 best_tabu i j <-> ~ (i = 0 /\ j = 1)).
    { intros i j Hi Hj. assert (C : forall a, a < 2 -> columns_of (expanded best_X [(0, Cont); (1, Cont)]) a = [a]) by (intros a Ha; assert (a = 0 \/ a = 1) as [-> | ->] by lia; reflexivity).
      split; intros N M; apply N.
      - destruct M as [-> ->]. exists 0, 1. rewrite !C by lia. repeat split; try lia; try (left; reflexivity). intros [(l & [= <-] & [[=]|[]])|[(l & [=] & _)|(l & [=] & _)]].
      - destruct M as (a & b & Ha & Hb & Ia & Ib & Nab & Nb). rewrite C in Ia, Ib by auto. destruct Ia as [<-|[]]. destruct Ib as [<-|[]].
        assert (a = 0 \/ a = 1) as [-> | ->] by lia; assert (b = 0 \/ b = 1) as [-> | ->] by lia; auto; exfalso; try (apply Nab; reflexivity). apply Nb. left. eexists. split; [reflexivity|]. left. reflexivity. }
    split.
    + intros i j u Hi Hj Hu N. apply No in N; auto. unfold first_weight. assert (u = 0) as -> by lia.
      assert (i = 0 \/ i = 1) as [-> | ->] by lia; assert (j = 0 \/ j = 1) as [-> | ->] by lia; try reflexivity. exfalso. apply N. auto.
    + intros u b Lu Ku Eb. destruct u as [|u0 [|u1 [|u2 [|u3 [|]]]]]; try discriminate.
      assert (Z0 : u0 = 0%Qc) by (apply (Ku 0 0 0); try lia; apply No; lia). assert (Z1 : u1 = 0%Qc) by (apply (Ku 1 0 0); try lia; apply No; lia).
      assert (Z3 : u3 = 0%Qc) by (apply (Ku 1 1 0); try lia; apply No; lia). subst u0 u1 u3. rewrite best_value in Eb. injection Eb as <-.
      eexists. split; [apply best_value|]. replace (realq 1) with 1%R by (unfold realq, Q2R; cbn; lra). pose proof (pow2_ge_0 (1 - realq u2)). lra.
  - intros bs r q s k. exists 0%Qc. split; [reflexivity|]. split; [apply Qcle_refl|]. unfold best_opt.
    rewrite best_penalty, realq_0, Rminus_0_r, Rabs_R0. apply Rle_refl.
  - rewrite best_value. f_equal. rewrite realq_0. lra.
  - cbn [l_params]. rewrite best_value. f_equal. unfold realq, Q2R. cbn. lra.
  - assert (S : (sqrt (2 * (1 + 0 - 0)) <= 2)%R). { replace 2%R with (sqrt (2 ^ 2)) at 2 by (apply sqrt_pow2; lra). apply sqrt_le_1_alt. lra. }
    cbn [best_par tp_max_iter Nat.sub pow]. lra.
  - assert (S : (sqrt (2 * (1 + 0 - 0) / 10 ^ 15) <= / 10 ^ 7)%R). { replace (/ 10 ^ 7)%R with (sqrt ((/ 10 ^ 7) ^ 2)) by (apply sqrt_pow2; lra). apply sqrt_le_1_alt. cbn [pow]. lra. }
    intros L HL. unfold realq, Q2R. cbn [Qnum Qden this Q2Qc]. assert (M : (Rmax (/ 10 ^ 8) (sqrt (2 * (1 + 0 - 0) / 10 ^ 15) + 0) <= / 10 ^ 7)%R) by (apply Rmax_lub; lra).
    assert (L = 1 \/ L = 2) as [-> | ->] by lia; cbn; cbn in M; lra.
Qed.
