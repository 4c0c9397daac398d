(** * PropsLoss: properties C75, C76 and C77, the objective of the torch learner. *)
From Coq Require Import List Bool Arith ZArith Lia String QArith Qcanon Reals Lra.
From Verif Require Import Base Names Digraph SmModel QcX NetModel NotearsModel AcycModel AcycLink TorchModel TorchSpec TorchProofs TorchTotal SklModel OrdProofs SklPredict LossModel LossProofs LossSpec LossNll LossThms LossShift LossFunc LossBias.
Import ListNotations.
Local Open Scope list_scope.
Local Open Scope nat_scope.

(** ** Specification ([likelihood], [constant], [suitable] and [average] are in LossSpec.v) *)

(** What is reported for a column in a row of predictions: its own entry, the entries of its categories, or (for an
    ordinal column, where the whole row is replaced) the row. *)
Definition reported_row (dt : dtype) (row : list R) : list R :=
  match dt_kind dt with Ord => row | _ => map (fun j => nth j row 0%R) (dt_columns dt) end.

(** The mean over the rows of minus the logarithm of the likelihood of the values in [X], without constants *)
Definition negative_log_likelihood (X : data) (dt : dtype) (M : rmat) : R :=
  let col := column (dt_idx dt) X in
  average (map (fun p => let x := nth (dt_idx dt) (fst p) 0%Qc in
                         (- ln (likelihood (dt_kind dt) col x (reported_row dt (snd p))) - constant (dt_kind dt) x)%R)
               (combine (rows X) (r_rows M))).

(** Columns named once, in range *)
Definition well_posed (ks : list (nat * kind)) (X : data) : Prop :=
  rect X /\ NoDup (map fst ks) /\ (forall i, In i (map fst ks) -> i < width X) /\ rows X <> [].

(** The cumulative odds that fitting stores for the ordinal columns *)
Definition odds_fitted (odds : nat -> list R) (dts : list dtype) (X : data) : Prop :=
  forall dt, In dt dts -> dt_kind dt = Ord -> odds (dt_idx dt) = log_cum_odds (column (dt_idx dt) X).

(** A change by [q] of one parameter *)
Definition one_changed (p : nat) (q : Qc) (v v' : list Qc) : Prop :=
  (forall k, k <> p -> nth k v' 0%Qc = nth k v 0%Qc) /\ nth p v' 0%Qc = (nth p v 0 + q)%Qc.

(** The final biases are the last [d] parameters. *)
Definition final_bias (d : nat) (dims : list nat) (j : nat) : nat := n_params d true dims - d + j.

(** What the data say of place [p] of a column: its value, or whether it is in category [p]. *)
Definition seen (k : kind) (col : list Qc) (p : nat) (x : Qc) : R :=
  match k with Cat => if place col x =? p then 1%R else 0%R | _ => realq x end.

Definition net_outputs (act : activation) (use_bias : bool) (dims : list nat) (X : data) (v : list Qc) : list (list R) :=
  map (fun r => map realq (forward act use_bias dims v r)) (rows X).

(** ** C75: the loss is the negative log likelihood of what is reported *)
Theorem C75_likelihood : forall ks X t dts X' t' odds Z,
  well_posed ks X -> prepare ks X t = Ok (dts, X', t') -> odds_fitted odds dts X ->
  Forall (fun z => List.length z = width X') Z -> List.length Z = List.length (rows X) ->
  (forall i k, In (i, k) ks -> suitable k (column i X)) ->
  exists Ms,
    Forall2 (fun dt M => inverse_link odds dt (mkRm (width X') Z) = Ok M /\ List.length (r_rows M) = List.length (rows X) /\
      forall r m, In (r, m) (combine (rows X) (r_rows M)) ->
        (0 < likelihood (dt_kind dt) (column (dt_idx dt) X) (nth (dt_idx dt) r 0%Qc) (reported_row dt m))%R) dts Ms /\
    total_loss odds dts X' Z = Ok (fold_right Rplus 0%R (map (fun dM => negative_log_likelihood X (fst dM) (snd dM)) (combine dts Ms))).
Proof.
  intros ks X t dts X' t' odds Z (Rc & N & B & Nr) E Od Wz Lz Su.
  destruct (total_nll ks X t dts X' t' Rc N B E odds Z Od Wz Lz Nr Su) as (Ms & F & T). exists Ms. split; [|exact T].
  clear - F. induction F as [|dt M l ms (H1 & H2 & H3 & _) F IH]; constructor; auto.
Qed.
Print Assumptions C75_likelihood.

(** An ordinal column with a single category has no loss: fitting raises. *)
Theorem C75_single_category_raises : forall ks X t dts X' t' odds Z i,
  well_posed ks X -> prepare ks X t = Ok (dts, X', t') -> odds_fitted odds dts X ->
  Forall (fun z => List.length z = width X') Z -> List.length Z = List.length (rows X) ->
  In (i, Ord) ks -> List.length (nodup Qc_eq_dec (column i X)) < 2 ->
  exists e, total_loss odds dts X' Z = Err e.
Proof.
  intros ks X t dts X' t' odds Z i (Rc & N & B & Nr) E Od Wz Lz I L.
  apply (total_raises ks X t dts X' t' Rc N B E odds Z Od Wz Lz Nr). exact (single_raises ks X t dts X' t' Rc N B E i I L).
Qed.
Print Assumptions C75_single_category_raises.

(** Five columns, one of each kind *)
Definition ex_ks : list (nat * kind) := [(0, Bin); (1, Cat); (2, Ord); (3, Poiss); (4, Cont)].
Definition ex_rows : data := mkData 5
  [[0; Q2Qc 3; 1; Q2Qc 2; Q2Qc (1 # 2)]; [1; Q2Qc 5; Q2Qc 2; 0; Q2Qc (-1)]; [1; Q2Qc 3; Q2Qc 2; 1; Q2Qc 4]]%Qc.
Definition ex_odds (X : data) (i : nat) : list R := log_cum_odds (column i X).

Lemma ex_posed : well_posed ex_ks ex_rows.
Proof.
  split; [|split; [|split]].
  - repeat constructor.
  - cbn [ex_ks map fst]. repeat (constructor; [cbn [In]; lia|]). constructor.
  - intros i H. change (width ex_rows) with 5. cbn [ex_ks map fst In] in H. lia.
  - discriminate.
Qed.
Lemma ex_suitable : forall i k, In (i, k) ex_ks -> suitable k (column i ex_rows).
Proof.
  intros i k H. cbn in H. repeat (destruct H as [[= <- <-]|H]); try contradiction; cbn [suitable]; auto.
  - intros x [<-|[<-|[<-|[]]]]; auto.
  - intros x [<-|[<-|[<-|[]]]]; [exists 2|exists 0|exists 1]; apply Qc_is_canon; reflexivity.
Qed.

Example C75_met : exists dts X' t', well_posed ex_ks ex_rows /\ prepare ex_ks ex_rows (mkTabu None None None) = Ok (dts, X', t') /\
  odds_fitted (ex_odds ex_rows) dts ex_rows /\ width X' = 6 /\ (forall i k, In (i, k) ex_ks -> suitable k (column i ex_rows)).
Proof.
  destruct (prepare ex_ks ex_rows (mkTabu None None None)) as [[[dts X'] t']|e] eqn:E; [|vm_compute in E; discriminate].
  exists dts, X', t'. split; [apply ex_posed|]. split; [auto|]. split; [intros dt _ _; reflexivity|]. split; [|apply ex_suitable].
  vm_compute in E. injection E as _ <- _. reflexivity.
Qed.

(** One row, one binary column with value 1 and score z: the loss is - ln (1 / (1 + exp (-z))). *)
Example C75_value : forall z dts X' t', prepare [(0, Bin)] (mkData 1 [[1%Qc]]) (mkTabu None None None) = Ok (dts, X', t') ->
  total_loss (fun _ => []) dts X' [[z]] = Ok (- ln (/ (1 + exp (- z))))%R.
Proof.
  intros z dts X' t' E. vm_compute in E. injection E as <- <- <-. unfold total_loss. cbn [mapM bind]. unfold dist_loss. cbn [dt_kind dt_idx rows combine map fst snd nth bind].
  f_equal. unfold SklModel.rsum, rmean, SklModel.rsum. cbn [fold_right List.length INR].
  replace (realq _) with 1%R by (symmetry; exact realq_1). rewrite bce_simple, ln_Rinv by (pose proof (exp_pos (- z)); lra). lra.
Qed.

(** ** C76: the objective is bounded below *)

(** True when the values of the binary columns lie between 0 and 1. *)
Theorem C76_bounded_partial : forall ks X t dts X' t' odds act use_bias dims lasso ridge rho alpha,
  well_posed ks X -> prepare ks X t = Ok (dts, X', t') -> odds_fitted odds dts X -> network (width X') dims ->
  (forall i, In (i, Ord) ks -> 2 <= List.length (nodup Qc_eq_dec (column i X))) ->
  (forall i, In (i, Bin) ks -> forall x, In x (column i X) -> (0 <= x)%Qc /\ (x <= 1)%Qc) ->
  (0 <= lasso)%R -> (0 <= ridge)%R -> (0 <= rho)%R -> (0 <= alpha)%R ->
  exists c, forall v, exists f, torch_func act use_bias dims dts odds X' lasso ridge rho alpha v = Ok f /\ (c <= f)%R.
Proof.
  intros ks X t dts X' t' odds act ub dims lasso ridge rho alpha (Rc & N & B & Nr) E Od Nw Or Bn H1 H2 H3 H4.
  apply (objective_bound ks X t dts X' t' Rc N B E Nr odds act dims lasso ridge rho alpha Nw Od ub Bn); auto.
  apply (two_fine ks X t dts X' t' Rc N B E Or).
Qed.
Print Assumptions C76_bounded_partial.

(** False in general: a binary column coded with other numbers, such as 1 and 2, is accepted; when its mean is more
    than 1 or less than 0, the objective falls without end along the bias of the column, from every point. *)
Theorem C76_unbounded : forall ks X t dts X' t' odds act dims lasso ridge rho alpha i v f,
  well_posed ks X -> prepare ks X t = Ok (dts, X', t') -> odds_fitted odds dts X -> network (width X') dims ->
  In (i, Bin) ks -> (1 < average (map realq (column i X)) \/ average (map realq (column i X)) < 0)%R ->
  n_params (width X') true dims <= List.length v ->
  torch_func act true dims dts odds X' lasso ridge rho alpha v = Ok f ->
  forall c, exists v' q f', one_changed (final_bias (width X') dims i) q v v' /\ List.length v' = List.length v /\
    torch_func act true dims dts odds X' lasso ridge rho alpha v' = Ok f' /\ (f' < c)%R.
Proof.
  intros ks X t dts X' t' odds act dims lasso ridge rho alpha i v f (Rc & N & B & Nr) E Od Nw I Hm Lv Ef.
  destruct (kind_at ks X t dts X' t' Rc N B E i Bin I) as (dt & Id & <- & Ek).
  exact (unbounded ks X t dts X' t' Rc N B E Nr odds act dims lasso ridge rho alpha Nw Od dt v f Id Ek Lv Ef Hm).
Qed.
Print Assumptions C76_unbounded.

Definition coded_12 : data := mkData 1 [[1%Qc]; [Q2Qc 2]].
Theorem C76_refuted : ~ forall ks X t dts X' t' odds act dims lasso ridge rho alpha,
  well_posed ks X -> prepare ks X t = Ok (dts, X', t') -> odds_fitted odds dts X -> network (width X') dims ->
  (forall i, In (i, Ord) ks -> 2 <= List.length (nodup Qc_eq_dec (column i X))) ->
  (0 <= lasso)%R -> (0 <= ridge)%R -> (0 <= rho)%R -> (0 <= alpha)%R ->
  exists c, forall v f, List.length v = n_params (width X') true dims ->
    torch_func act true dims dts odds X' lasso ridge rho alpha v = Ok f -> (c <= f)%R.
Proof.
  intros H. assert (Wp : well_posed [(0, Bin)] coded_12).
  { split; [repeat constructor|]. split; [cbn; repeat constructor; cbn; tauto|]. split; [cbn; intros i Hi; lia|discriminate]. }
  destruct (prepare [(0, Bin)] coded_12 (mkTabu None None None)) as [[[dts X'] t']|e] eqn:E; [|vm_compute in E; discriminate].
  assert (Nw : network (width X') (net_dims (width X') [0])) by (exists [0]; split; [discriminate|auto]).
  destruct (H [(0, Bin)] coded_12 _ dts X' t' (ex_odds coded_12) (fun _ x => x) (net_dims (width X') [0]) 0%R 0%R 0%R 0%R Wp E) as (c & Hc); auto; try lra.
  { intros dt _ _. reflexivity. }
  { cbn. intros i [Q|[]]. discriminate. }
  set (v := repeat 0%Qc (n_params (width X') true (net_dims (width X') [0]))).
  assert (Ok_ : exists f, torch_func (fun _ x => x) true (net_dims (width X') [0]) dts (ex_odds coded_12) X' 0 0 0 0 v = Ok f).
  { vm_compute in E. injection E as <- <- <-. eexists. unfold torch_func, total_loss. cbn [mapM]. unfold dist_loss. cbn [dt_kind bind]. reflexivity. }
  destruct Ok_ as (f & Ef).
  assert (Lv : List.length v = n_params (width X') true (net_dims (width X') [0])) by apply repeat_length.
  destruct (C76_unbounded [(0, Bin)] coded_12 _ dts X' t' (ex_odds coded_12) (fun _ x => x) (net_dims (width X') [0]) 0%R 0%R 0%R 0%R 0 v f Wp E) with (c := c) as (v' & q & f' & _ & L & E' & Lt); auto.
  - intros dt _ _. reflexivity.
  - left; auto.
  - left. unfold average, coded_12, column. cbn [rows map nth fold_right List.length INR]. replace (realq (Q2Qc 2)) with 2%R; [rewrite realq_1; lra|].
    unfold realq, Q2R. cbn. lra.
  - lia.
  - pose proof (Hc v' f' ltac:(congruence) E'). lra.
Qed.
Print Assumptions C76_refuted.

Example C76_met : (forall i, In (i, Bin) ex_ks -> forall x, In x (column i ex_rows) -> (0 <= x)%Qc /\ (x <= 1)%Qc) /\
  (forall i, In (i, Ord) ex_ks -> 2 <= List.length (nodup Qc_eq_dec (column i ex_rows))) /\ network 6 (net_dims 6 [3]).
Proof.
  split; [|split].
  - intros i [[= <-]|H]; [|cbn in H; intuition discriminate]. intros x [<-|[<-|[<-|[]]]]; split; vm_compute; discriminate.
  - intros i H. assert (i = 2) as -> by (cbn in H; intuition congruence).
    assert (L : List.length (nodup Qc_eq_dec (column 2 ex_rows)) = 2) by (vm_compute; reflexivity). lia.
  - exists [3]. split; [discriminate|auto].
Qed.

(** ** C77: at a minimum the predictions are right on average *)

(** Where no change of the final bias of an output lowers the objective, the mean of what is reported for it is the
    mean of what was observed: the mean, the share of ones, the mean count, the share of each category. *)
Theorem C77_balanced : forall ks X t dts X' t' odds act dims lasso ridge rho alpha dt p v f M,
  well_posed ks X -> prepare ks X t = Ok (dts, X', t') -> odds_fitted odds dts X -> network (width X') dims ->
  In dt dts -> dt_kind dt <> Ord -> p < List.length (dt_columns dt) ->
  n_params (width X') true dims <= List.length v ->
  torch_func act true dims dts odds X' lasso ridge rho alpha v = Ok f ->
  (forall v' q f', one_changed (final_bias (width X') dims (nth p (dt_columns dt) 0)) q v v' ->
     torch_func act true dims dts odds X' lasso ridge rho alpha v' = Ok f' -> (f <= f')%R) ->
  inverse_link odds dt (mkRm (width X') (net_outputs act true dims X' v)) = Ok M ->
  average (map (fun m => nth p (reported_row dt m) 0%R) (r_rows M)) =
  average (map (seen (dt_kind dt) (column (dt_idx dt) X) p) (column (dt_idx dt) X)).
Proof.
  intros ks X t dts X' t' odds act dims lasso ridge rho alpha dt p v f M (Rc & N & B & Nr) E Od Nw.
  exact (balanced ks X t dts X' t' Rc N B E Nr odds act dims lasso ridge rho alpha Nw Od dt p v f M).
Qed.
Print Assumptions C77_balanced.

(** The minimum over the bias exists: a column of two continuous values 1 and 3, no regularisation, no parents. *)
Example C77_met : exists v f dts X' t', prepare [(0, Cont)] (mkData 1 [[1%Qc]; [Q2Qc 3]]) (mkTabu None None None) = Ok (dts, X', t') /\
  torch_func (fun _ x => x) true [1; 1] dts (fun _ => []) X' 0 0 0 0 v = Ok f /\
  forall v' q f', one_changed (final_bias 1 [1; 1] 0) q v v' -> torch_func (fun _ x => x) true [1; 1] dts (fun _ => []) X' 0 0 0 0 v' = Ok f' -> (f <= f')%R.
Proof.
  destruct (prepare [(0, Cont)] _ _) as [[[dts X'] t']|e] eqn:E; [|vm_compute in E; discriminate].
  set (A := fun (_ : nat) (y : list Qc) => y).
  assert (V : forall v b, (forall x, forward A true [1; 1] v x = [b]) ->
    torch_func A true [1; 1] dts (fun _ => []) X' 0 0 0 0 v = Ok (0.25 * ((realq b - realq 1%Qc) ^ 2 + (realq b - realq (Q2Qc 3)) ^ 2))%R).
  { intros v b H. change (Ok ([mkDt Cont 0 [] []], mkData 1 [[1%Qc]; [Q2Qc 3]], mkTabu None None None) = Ok (dts, X', t')) in E. injection E as <- <- <-. unfold torch_func. cbv zeta. cbn [rows map].
    rewrite !H. match goal with |- context [poly_penalty ?n ?M] => generalize (poly_penalty n M) end.
    intros h. unfold total_loss. cbn [mapM]. unfold dist_loss. cbn [dt_kind dt_idx bind rows width combine map fst snd nth List.length INR]. unfold SklModel.rsum at 1 2. cbn [fold_right]. f_equal. lra. }
  assert (F0 : forall x, forward A true [1; 1] [0%Qc; Q2Qc 2] x = [Q2Qc 2]).
  { intros x. unfold forward. cbn. f_equal; try ring. }
  exists [0%Qc; Q2Qc 2]. eexists. exists dts, X', t'. split; [reflexivity|]. split; [apply V, F0|].
  intros v' q f' [M1 M2] Ef. pose proof (M1 0 ltac:(vm_compute; discriminate)) as V0. change (final_bias 1 [1; 1] 0) with 1 in M2. cbn [nth] in V0, M2. clear M1.
  assert (Fq : forall x, forward A true [1; 1] v' x = [(Q2Qc 2 + q)%Qc]).
  { intros x. unfold forward. cbn [map seq net_layers removelast tl combine run_layers dag_units nth]. unfold dag_units, dag_w, dag_b. cbn. rewrite V0, M2. f_equal; try ring. }
  rewrite (V v' _ Fq) in Ef. injection Ef as <-. rewrite realq_plus, realq_1.
  assert (R2 : realq (Q2Qc 2) = 2%R) by (unfold realq, Q2R; cbn; lra). assert (R3 : realq (Q2Qc 3) = 3%R) by (unfold realq, Q2R; cbn; lra).
  rewrite R2, R3. nra.
Qed.
