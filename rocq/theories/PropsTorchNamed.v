(** * PropsTorchNamed: the theorems about the torch version, for learning from a data frame. *)
From Coq Require Import List Bool Arith ZArith Lia String QArith Qcanon Qreals Reals Lra Relations Permutation.
From Coquelicot Require Import Coquelicot.
From Verif Require Import Base Names Digraph SmModel SmProofs SmBuild QcX NotearsModel NotearsProofs NotearsThms AcycModel AcycProofs AcycThms AcycLink
  TorchModel TorchSpec TorchProofs TorchThms TorchGraph TorchResult TorchPandas TorchFrame TorchAcyc TorchExact LossModel OrdProofs FitBound TorchBest TorchNamed AscentSpec AscentApi.
From Verif Require PropsTorch PropsTorchBest PropsFirst PropsAscent FirstAnswer.
Import ListNotations.
Local Open Scope string_scope.
Local Open Scope list_scope.
Local Open Scope nat_scope.

(** ** C118 and C123: the first answer of the optimiser and the rounds *)
Theorem C118_torch_pandas : forall fuel opt eh act grad rnd order X schema p t l, 0 < tp_max_iter p ->
  NoDup (map fst (f_cols X)) -> List.Forall (fun r => List.length r = List.length (f_cols X)) (f_rows X) ->
  (forall s, schema = Some s -> NoDup (map fst s)) -> (forall ds, Permutation (order ds) ds) ->
  torch_pandas fuel opt eh act grad rnd order X schema p t = Ok l ->
  let d := nth 0 (l_dims l) 0 in let m := nth 1 (l_dims l) 0 in
  exists bs, torch_asks_frame X schema p t l bs /\ let v := opt bs 1%Qc (Fin 0%Qc) (repeat 0%Qc (d * m * d + (if tp_bias p then d * m else 0)) ++ rnd) 0 in
    forall x, eh (h_size (l_dtypes l)) (h_matrix (l_dtypes l) d m v) = Fin x ->
      (x <= Q2Qc (1 # 100000000))%Qc \/ tp_max_iter p = 1 ->
      l_params l = v /\ (l_warned l = true <-> (Q2Qc (1 # 100000000) < x)%Qc).
Proof.
  intros fuel opt eh act grad rnd order X schema p t l Hm Nc R Ns Po E d m.
  destruct (torch_pandas_renamed _ _ _ _ _ _ _ _ _ _ _ _ Nc R Ns Po E) as (sz & tz & ks & _ & _ & Es & Et & Ek & _).
  destruct (pandas_numbers fuel opt eh act grad rnd order X schema p t l sz tz ks Nc R Ns Po E Es Et Ek) as (Nz & Rm & Wi & l0 & name & E0 & _ & P1 & P2 & P3 & P4 & P5).
  destruct (FirstAnswer.first_torch fuel opt eh act grad rnd _ sz p tz l0 Hm E0) as (bs & As & K). exists bs. split; [exact (asks_named X schema p t l l0 bs sz tz ks Nc Es Et Ek Rm Nz P2 As)|].
  rewrite P1, P2, P3, P5 in K. exact K.
Qed.
Print Assumptions C118_torch_pandas.

Theorem C123_torch_pandas : forall fuel opt eh act grad rnd order X schema p t l, 0 < tp_max_iter p ->
  NoDup (map fst (f_cols X)) -> List.Forall (fun r => List.length r = List.length (f_cols X)) (f_rows X) ->
  (forall s, schema = Some s -> NoDup (map fst s)) -> (forall ds, Permutation (order ds) ds) ->
  torch_pandas fuel opt eh act grad rnd order X schema p t = Ok l ->
  let d := nth 0 (l_dims l) 0 in let m := nth 1 (l_dims l) 0 in
  let P := fun v x => eh (h_size (l_dtypes l)) (h_matrix (l_dtypes l) d m v) = Fin x in
  exists bs, torch_asks_frame X schema p t l bs /\ (finite_answers opt bs P ->
    exists v, runs opt bs P (Q2Qc (1 # 100000000)) (Qcpower (Q2Qc 10) 16) (tp_max_iter p)
                (repeat 0%Qc (d * m * d + (if tp_bias p then d * m else 0)) ++ rnd) (l_params l) v /\
      (l_warned l = true <-> v = OutOfIterations)).
Proof.
  intros fuel opt eh act grad rnd order X schema p t l Hm Nc R Ns Po E d m P.
  destruct (torch_pandas_renamed _ _ _ _ _ _ _ _ _ _ _ _ Nc R Ns Po E) as (sz & tz & ks & _ & _ & Es & Et & Ek & _).
  destruct (pandas_numbers fuel opt eh act grad rnd order X schema p t l sz tz ks Nc R Ns Po E Es Et Ek) as (Nz & Rm & Wi & l0 & name & E0 & _ & P1 & P2 & P3 & P4 & P5).
  destruct (AscentApi.run_torch fuel opt eh act grad rnd _ sz p tz l0 Hm E0) as (bs & As & K). exists bs. split; [exact (asks_named X schema p t l l0 bs sz tz ks Nc Es Et Ek Rm Nz P2 As)|].
  rewrite P1, P2, P3, P5 in K. exact K.
Qed.
Print Assumptions C123_torch_pandas.

(** ** C124 *)

(** [sz], [ks], [X'] : the schema by column number, the kinds of the columns and the data after expansion, as C38 and C39 describe
    them; [open_named_column] speaks of the labels. *)
Theorem C124_pandas : forall fuel opt eh act grad rnd order X schema p t l sz tz ks dts X' t' odds lasso ridge eps delta,
  NoDup (map fst (f_cols X)) -> List.Forall (fun r => List.length r = List.length (f_cols X)) (f_rows X) ->
  (forall s, schema = Some s -> NoDup (map fst s)) -> (forall ds, Permutation (order ds) ds) -> 0 < tp_max_iter p ->
  torch_pandas fuel opt eh act grad rnd order X schema p t = Ok l ->
  let cols := map fst (f_cols X) in let n := List.length cols in let M := mkMat n (f_rows X) in
  schema_index cols schema = Ok sz -> tabu_index (col_idx cols) t = Ok tz -> schema_kinds n sz = Ok ks -> prepare ks (start_data M) tz = Ok (dts, X', t') ->
  let d := nth 0 (l_dims l) 0 in let m := nth 1 (l_dims l) 0 in let size := n_params d (tp_bias p) (l_dims l) in
  let L := expanded M ks in let may := open_named_column L cols t in
  let F := torch_func act (l_use_bias l) (l_dims l) (l_dtypes l) odds X' lasso ridge in let cost := F 0%R 0%R in
  near_torch d m size may F eps opt -> (forall bs r q s k, torch_close delta eh (l_dtypes l) d m (opt bs r (Fin q) s k)) ->
  List.length (l_params l) = size /\ keeps_bans d m may (l_params l) /\
  (forall u b, List.length u = size -> keeps_bans d m may u -> no_cycles L n d m u -> cost u = Ok b -> exists a, cost (l_params l) = Ok a /\ (a <= b + eps)%R) /\
  forall f0 c, cost (repeat 0%Qc size) = Ok f0 -> (forall v a, cost v = Ok a -> (c <= a)%R) -> let range := (f0 + eps - c)%R in
    (exists x, eh (h_size (l_dtypes l)) (h_matrix (l_dtypes l) d m (l_params l)) = Fin x /\
       (l_warned l = false -> (realq x <= / 10 ^ 8)%R \/ (realq x <= sqrt (2 * range / 10 ^ 15) + delta)%R) /\
       ((sqrt (2 * range) + delta <= 4 ^ (tp_max_iter p - 1) * / 10 ^ 8)%R -> l_warned l = false)) /\
    forall th, no_suffixes cols -> linear p -> tp_threshold p = Some th -> (0 <= th)%Qc ->
      poly_excludes n (realq th) (Rmax (/ 10 ^ 8) (sqrt (2 * range / 10 ^ 15) + delta) + delta) -> l_warned l = false ->
      Digraph.acyclic (edges (l_graph l)).
Proof.
  intros fuel opt eh act grad rnd order X schema p t l sz tz ks dts X' t' odds lasso ridge eps delta Nc R Ns Po Hm E cols n M Es Et Ek Ep d m size L may F cost Ne Cl.
  destruct (pandas_numbers fuel opt eh act grad rnd order X schema p t l sz tz ks Nc R Ns Po E Es Et Ek) as (Nz & Rm & Wi & l0 & name & E0 & Rn & P1 & P2 & P3 & P4 & P5).
  fold cols n M in Wi, E0, Rm, Rn. assert (Ex : forall x y, may x y <-> open_column L n tz x y) by (intros; symmetry; apply open_column_named; auto).
  assert (Ex' : forall x y, open_column L n tz x y <-> may x y) by (intros; symmetry; auto).
  assert (Ne0 := near_torch_ext _ _ _ _ _ _ _ _ Ex Ne). subst F cost d m size. rewrite <- P2, <- P3, <- P4 in Ne0. rewrite <- P2, <- P3 in Cl.
  destruct (torch_best fuel opt eh act grad rnd M sz p tz l0 ks dts X' t' odds lasso ridge eps delta Rm Nz Ek Ep Wi Hm E0 Ne0 Cl) as (H1 & [H2 _] & H3 & H4).
  pose proof (fun f0 c th => PropsTorchBest.C124_acyclic fuel opt eh act grad rnd M sz p tz l0 ks dts X' t' odds lasso ridge eps delta f0 c th Rm Nz Ek Ep Wi Hm E0 Ne0 Cl) as H5.
  cbv zeta in H4, H5. rewrite <- P1, <- P2, <- P3, <- P4, <- P5. split; [exact H1|]. split; [exact (keeps_ext _ _ _ _ _ Ex' H2)|]. split.
  - intros u b Lu Ku Nu Cu. exact (H3 u b Lu (keeps_ext _ _ _ _ _ Ex Ku) Nu Cu).
  - intros f0 c C0 Lc range. split; [exact (H4 f0 c C0 Lc)|]. intros th NS Lp Eth Hth Px Nw.
    apply (renamed_acyclic _ _ _ _ _ _ Rn); [|exact (H5 f0 c th C0 Lc Lp Eth Hth Px Nw)].
    pose proof (prepare_facts _ _ _ _ _ _ _ Rm Nz Ek Ep) as Fa. intros x y Hx Hy Q.
    pose proof (rn_name _ _ _ _ _ _ Rn x Hx) as A. pose proof (rn_name _ _ _ _ _ _ Rn y Hy) as B. rewrite <- Q in B. exact (names_distinct cols M ks tz dts X' t' x y _ Fa Nc eq_refl NS A B).
Qed.
Print Assumptions C124_pandas.

(** ** Examples: the data of C124 with the columns named *)
Definition best_frame : frame := mkFrame [(LStr "cause", true); (LStr "effect", true)] [[Fin 1; Fin 1]; [Fin (- (1)); Fin (- (1))]]%Qc.
Definition best_bans : tabu label := mkTabu (Some [(LStr "effect", LStr "cause")]) None None.
Lemma named_tabu : tabu_index (col_idx (map fst (f_cols best_frame))) best_bans = Ok PropsTorchBest.best_tabu.
Proof. reflexivity. Qed.

Example C124_pandas_met : exists l, torch_pandas 17 PropsTorchBest.best_opt PropsTorch.ex_teh PropsTorch.ex_act PropsTorch.ex_grad [] (fun ds => ds) best_frame None PropsTorchBest.best_par best_bans = Ok l /\
  edges (l_graph l) = [(LStr "cause", LStr "effect")] /\ l_warned l = false /\ l_dims l = [2; 1] /\ l_dtypes l = PropsTorchBest.best_dts /\ no_suffixes (map fst (f_cols best_frame)) /\
  near_torch 2 1 4 (open_named_column (expanded PropsTorchBest.best_X [(0, Cont); (1, Cont)]) (map fst (f_cols best_frame)) best_bans) PropsTorchBest.best_F 0 PropsTorchBest.best_opt /\
  (forall bs r q s k, torch_close 0 PropsTorch.ex_teh PropsTorchBest.best_dts 2 1 (PropsTorchBest.best_opt bs r (Fin q) s k)).
Proof.
  destruct PropsTorchBest.C124_met as (_ & _ & _ & _ & _ & _ & _ & _ & Ne & Cl & _). eexists. split; [vm_compute; reflexivity|]. split; [reflexivity|]. split; [reflexivity|]. split; [reflexivity|]. split; [reflexivity|].
  split.
  - intros c c' ds I I' N D. cbn in I, I'. destruct I as [<-|[<-|[]]]; destruct I' as [<-|[<-|[]]]; try congruence; cbn; intros Q; discriminate.
  - split; [|exact Cl]. refine (near_torch_ext _ _ _ _ _ _ _ _ _ Ne). intros x y. change 2 with (List.length (map fst (f_cols best_frame))). apply open_column_named; [|reflexivity].
    repeat constructor; cbn; intuition congruence.
Qed.

Example C118_torch_pandas_met :
  (exists l, torch_pandas 17 PropsFirst.two_opt (fun _ _ => Fin (Q2Qc (1 # 100000000))) PropsTorch.ex_act PropsTorch.ex_grad [] (fun ds => ds) best_frame None PropsTorch.ex_linear best_bans = Ok l /\
     l_params l = [0; Q2Qc (1 # 2); 0; 0]%Qc /\ l_warned l = false) /\
  (exists l, torch_pandas 17 PropsAscent.inv_opt PropsAscent.inv_teh PropsTorch.ex_act PropsTorch.ex_grad [] (fun ds => ds) best_frame None PropsAscent.inv_tpar best_bans = Ok l /\
     l_warned l = true /\ nth 2 (l_params l) 0%Qc = Q2Qc (11 # 10)).
Proof. split; eexists; (split; [vm_compute; reflexivity|]); split; vm_compute; reflexivity. Qed.
