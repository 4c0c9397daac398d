(** * LossFunc: the objective when one bias moves; lower bounds. *)
From Coq Require Import List Bool Arith ZArith Lia String QArith Qcanon Qround Permutation Reals Lra.
From Verif Require Import Base Names Digraph SmModel QcX NetModel NotearsModel NotearsProofs AcycModel AcycProofs AcycThms ObjProofs ObjGrad AcycLink
  TorchModel TorchSpec TorchProofs TorchTotal TorchAcyc SklModel OrdProofs SklPredict LossModel LossProofs LossSpec LossNll LossThms LossShift.
Import ListNotations.
Local Open Scope list_scope.
Local Open Scope nat_scope.

(** Outputs with [q] added to the output [j0] *)
Definition bump (d j0 : nat) (q : R) (z : list R) : list R := map (fun j => if j =? j0 then (nth j z 0 + q)%R else nth j z 0%R) (seq 0 d).

Lemma bump_nth d j0 q z j : j < d -> nth j (bump d j0 q z) 0%R = (if j =? j0 then nth j z 0 + q else nth j z 0)%R.
Proof. intros H. unfold bump. apply (nth_map_seq_R (fun j => if j =? j0 then (nth j z 0 + q)%R else nth j z 0%R) d j 0 H). Qed.
Lemma bump_length d j0 q z : List.length (bump d j0 q z) = d.
Proof. unfold bump. rewrite map_length, seq_length. auto. Qed.

Lemma dist_loss_ext odds t X Z Z' : map (picks 0%R (dt_columns t)) Z = map (picks 0%R (dt_columns t)) Z' -> dist_loss odds t X Z = dist_loss odds t X Z'.
Proof.
  intros H. assert (G : dt_kind t <> Cat -> map (fun z => nth (dt_idx t) z 0%R) Z = map (fun z => nth (dt_idx t) z 0%R) Z').
  { intros K. assert (Dc : dt_columns t = [dt_idx t]) by (unfold dt_columns; destruct (dt_kind t); congruence || auto). rewrite Dc in H.
    apply (f_equal (map (hd 0%R))) in H. rewrite !map_map in H. exact H. }
  unfold dist_loss. destruct (dt_kind t) eqn:K.
  - specialize (G ltac:(congruence)). do 2 f_equal. apply (combine_ext_r (fun z => nth (dt_idx t) z 0%R) (fun z => nth (dt_idx t) z 0%R) (fun r u => bce_logits u (realq (nth (dt_idx t) r 0%Qc)))). auto.
  - rewrite (mapM_map _ (combine (rows X) Z)), (mapM_map _ (combine (rows X) Z')). assert (Dc : dt_columns t = dt_group t) by (unfold dt_columns; rewrite K; auto). rewrite Dc in H.
    rewrite (combine_ext_r (picks 0%R (dt_group t)) (picks 0%R (dt_group t)) (fun r u => cross_entropy u (argmax (picks 0%Qc (dt_group t) r))) (rows X) Z Z' H). auto.
  - specialize (G ltac:(congruence)). do 3 f_equal. apply (combine_ext_r (fun z => nth (dt_idx t) z 0%R) (fun z => nth (dt_idx t) z 0%R) (fun r u => ((u - realq (nth (dt_idx t) r 0%Qc)) ^ 2)%R)). auto.
  - specialize (G ltac:(congruence)). rewrite (mapM_map _ (combine (rows X) Z)), (mapM_map _ (combine (rows X) Z')).
    rewrite (combine_ext_r (fun z => nth (dt_idx t) z 0%R) (fun z => nth (dt_idx t) z 0%R) (fun r u => do ps <- get_probs (odds (dt_idx t)) u;
                                   match nth_error ps (to_long (nth (dt_idx t) r 0%Qc)) with Some q => Ok (- ln q)%R | None => Err RuntimeError end) (rows X) Z Z' G). auto.
  - specialize (G ltac:(congruence)). do 2 f_equal. apply (combine_ext_r (fun z => nth (dt_idx t) z 0%R) (fun z => nth (dt_idx t) z 0%R) (fun r u => poisson_nll u (realq (nth (dt_idx t) r 0%Qc)))). auto.
Qed.

Lemma dist_loss_bump odds t X d j0 q Z : ~ In j0 (dt_columns t) -> Forall (fun j => j < d) (dt_columns t) -> dist_loss odds t X (map (bump d j0 q) Z) = dist_loss odds t X Z.
Proof.
  intros N B. apply dist_loss_ext. rewrite map_map. apply map_ext. intros z. apply map_ext_in. intros j Hj. rewrite Forall_forall in B. rewrite bump_nth by auto.
  destruct (Nat.eqb_spec j j0) as [->|]; [tauto|auto].
Qed.

Lemma total_swap odds X Z Z' dt : forall dts T l', NoDup dts -> In dt dts -> (forall u, In u dts -> u <> dt -> dist_loss odds u X Z' = dist_loss odds u X Z) ->
  total_loss odds dts X Z = Ok T -> dist_loss odds dt X Z' = Ok l' -> exists l, dist_loss odds dt X Z = Ok l /\ total_loss odds dts X Z' = Ok (T - l + l')%R.
Proof.
  unfold total_loss. induction dts as [|a dts IH]; intros T l' N I O E E'; [destruct I|]. apply NoDup_cons_iff in N. destruct N as [Na N].
  cbn [mapM] in E. destruct (dist_loss odds a X Z) as [la|] eqn:Ea; cbn [bind] in E; [|discriminate].
  destruct (mapM (fun t => dist_loss odds t X Z) dts) as [ls|] eqn:El; cbn [bind] in E; [|discriminate]. injection E as <-. cbn [mapM].
  destruct I as [->|I].
  - exists la. split; auto. rewrite E'. cbn [bind].
    assert (Q : mapM (fun t => dist_loss odds t X Z') dts = Ok ls).
    { rewrite <- El. rewrite (mapM_map (fun t => dist_loss odds t X Z')), (mapM_map (fun t => dist_loss odds t X Z)). f_equal. apply map_ext_in. intros u Hu. apply O; [right; auto|]. intros ->. tauto. }
    rewrite Q. cbn [bind]. f_equal. unfold SklModel.rsum. cbn [fold_right]. lra.
  - destruct (IH (SklModel.rsum ls) l' N I) as (l & E1 & E2); auto; [intros; apply O; auto; right; auto|]. exists l. split; auto.
    rewrite (O a (or_introl eq_refl)) by (intros ->; tauto). rewrite Ea. cbn [bind].
    destruct (mapM (fun t => dist_loss odds t X Z') dts) as [ls'|]; cbn [bind] in E2 |- *; [|discriminate]. injection E2 as E2. f_equal. unfold SklModel.rsum in *. cbn [fold_right]. lra.
Qed.

Lemma poly_ext d A B : (forall i j, i < d -> j < d -> A i j = B i j) -> poly_penalty d A = poly_penalty d B.
Proof.
  intros H. unfold poly_penalty. f_equal. apply rsum_ext. intros i Hi. apply rsum_ext. intros j Hj. rewrite H by auto. f_equal.
  apply mpow_ext; auto. intros a b Ha Hb. rewrite H by auto. auto.
Qed.

Lemma kind_eq (a b : kind) : {a = b} + {a <> b}.
Proof. decide equality. Qed.

Lemma poisson_data ks : forall X t dts X' t', rect X -> NoDup (map fst ks) -> (forall i, In i (map fst ks) -> i < width X) -> prepare ks X t = Ok (dts, X', t') ->
  forall dt, In dt dts -> dt_kind dt = Poiss -> forall x, In x (column (dt_idx dt) X) -> (0 <= x)%Qc.
Proof.
  induction ks as [|[i k] ks IH]; intros X t dts X' t' R N B E dt0 I K x Hx; cbn [prepare] in E.
  - injection E as <- <- <-. destruct I.
  - apply bind_ok in E. destruct E as ([dt X1] & E1 & E). apply bind_ok in E. destruct E as ([[dts1 X2] t2] & E2 & E). cbn [fst snd] in *. injection E as <- <- <-.
    cbn in N. apply NoDup_cons_iff in N. destruct N as [Ni N]. pose proof (B i (or_introl eq_refl)) as Bi.
    destruct (preprocess_fit_spec k i X dt X1 R Bi E1) as (Ei & Ek & R1 & W1 & C1 & G1 & O1).
    assert (Bj : forall j, In j (map fst ks) -> j < width X1) by (intros j Hj; rewrite W1; pose proof (B j (or_intror Hj)); lia).
    destruct (prepare_layout ks _ _ _ _ _ R1 N Bj E2) as (_ & Kk & _).
    destruct I as [<-|I].
    + rewrite Ek in K. subst k. cbn in E1. rewrite Ei in Hx. destruct (existsb (fun x => qlt x 0%Qc) (column i X)) eqn:Q; [discriminate|]. apply (proj1 (existsb_negative _) Q). auto.
    + assert (Id : In (dt_idx dt0) (map fst ks)) by (rewrite <- Kk, map_map; apply in_map_iff; exists dt0; auto).
      apply (IH _ _ _ _ _ R1 N Bj E2 dt0 I K). rewrite O1; auto; [apply B; right; auto|]. intros Q. apply Ni. rewrite <- Q. auto.
Qed.

Section Objective.
  Context (ks : list (nat * kind)) (X : data) (t : tabu Z) (dts : list dtype) (X' : data) (t' : tabu Z).
  Context (Rc : rect X) (N : NoDup (map fst ks)) (B : forall i, In i (map fst ks) -> i < width X) (E : prepare ks X t = Ok (dts, X', t')) (Nr : rows X <> []).
  Context (odds : nat -> list R) (act : activation) (dims : list nat) (lasso ridge rho alpha : R).
  Context (Nw : network (width X') dims).
  Context (Od : forall dt, In dt dts -> dt_kind dt = Ord -> odds (dt_idx dt) = log_cum_odds (column (dt_idx dt) X)).
  Let d := width X'.

  Definition outputs (ub : bool) (v : list Qc) : list (list R) := map (fun r => map realq (forward act ub dims v r)) (rows X').
  Definition objective (ub : bool) (v : list Qc) : res R := torch_func act ub dims dts odds X' lasso ridge rho alpha v.

  Lemma outputs_wf ub v : Forall (fun z => List.length z = d) (outputs ub v) /\ List.length (outputs ub v) = List.length (rows X).
  Proof.
    destruct (prepared_rect ks X t dts X' t' Rc N B E) as (_ & L & _). destruct (network_cases _ _ Nw) as [E0 _]. split.
    - apply Forall_map, Forall_forall. intros r _. rewrite map_length. unfold forward. rewrite map_length, seq_length. auto.
    - unfold outputs. rewrite map_length. auto.
  Qed.

  Lemma outputs_moved v v' j0 q : j0 < d -> moved (bias_place d dims j0) q v v' -> outputs true v' = map (bump d j0 (realq q)) (outputs true v).
  Proof.
    intros Hj M. unfold outputs. rewrite map_map. apply map_ext. intros r. rewrite (forward_moved act d dims v v' r j0 q Nw Hj M). rewrite map_map. unfold bump.
    apply map_ext_in. intros j Hj'. apply in_seq in Hj'. cbv zeta. rewrite <- realq_0. rewrite !(map_nth realq).
    destruct (j =? j0); auto. apply realq_plus.
  Qed.

  Lemma dts_nodup : NoDup dts.
  Proof. apply (NoDup_map_inv dt_idx). rewrite (dts_idx ks X t dts X' t' Rc N B E). auto. Qed.

  Lemma objective_moved v v' dt j0 q f l' : In dt dts -> In j0 (dt_columns dt) -> moved (bias_place d dims j0) q v v' ->
    objective true v = Ok f -> dist_loss odds dt X' (map (bump d j0 (realq q)) (outputs true v)) = Ok l' ->
    exists l, dist_loss odds dt X' (outputs true v) = Ok l /\ objective true v' = Ok (f - l + l')%R.
  Proof.
    intros I Ij M Ef El. assert (Hj : j0 < d) by (apply (columns_bound ks X t dts X' t' Rc N B E dt); auto).
    assert (Bd : forall u, In u dts -> Forall (fun j => j < d) (dt_columns u)) by (intros u Hu; apply Forall_forall; intros j; apply (columns_bound ks X t dts X' t' Rc N B E u); auto).
    unfold objective, torch_func in Ef |- *. cbv zeta in Ef |- *. fold d in Ef |- *. fold (outputs true v) in Ef. fold (outputs true v'). rewrite (outputs_moved v v' j0 q Hj M).
    destruct (total_loss odds dts X' (outputs true v)) as [T|] eqn:Et; cbn [bind] in Ef; [|discriminate]. injection Ef as <-.
    destruct (total_swap odds X' (outputs true v) (map (bump d j0 (realq q)) (outputs true v)) dt dts T l') as (l & E1 & E2); auto.
    - apply dts_nodup.
    - intros u Hu Nu. apply dist_loss_bump; auto. intros Q. apply Nu. apply (columns_disjoint ks X t dts X' t' Rc N B E u dt j0); auto.
    - exists l. split; auto. rewrite E2. cbn [bind]. f_equal. rewrite (l1_moved d dims v v' j0 q Nw M), (l2_moved d dims v v' j0 q Nw M).
      rewrite (poly_ext _ _ (fun i j => realq (h_matrix dts d (nth 1 dims 0) v i j))); [lra|].
      intros a b Ha Hb. f_equal. destruct (weights_before_bias d dims Nw) as [W _]. destruct M as [M _].
      assert (Hs : h_size dts <= d).
      { unfold h_size. apply le_n_S in Hj. assert (list_max (map dt_idx dts) < d); [|lia]. apply list_max_lt; [destruct dts; [destruct I|discriminate]|].
        apply Forall_map, Forall_forall. intros u Hu. destruct (columns_head ks X t dts X' t' Rc N B E u Hu) as (ex & Ex).
        specialize (Bd u Hu). rewrite Ex in Bd. inversion Bd; auto. }
      apply (h_same d _ dts v v'); auto; try lia. intros k Hk. apply M. unfold bias_place. lia.
  Qed.

  (** ** Bounds *)
  Lemma average_ge {A} (f g : A -> R) (l : list A) : (forall a, In a l -> g a <= f a)%R -> (average (map g l) <= average (map f l))%R.
  Proof.
    intros H. unfold average. rewrite !map_length. destruct l as [|a0 l0] eqn:El; [cbn; lra|]. rewrite <- El in *. unfold Rdiv. apply Rmult_le_compat_r.
    - left. apply Rinv_0_lt_compat. apply lt_0_INR. rewrite El. cbn. lia.
    - clear El. induction l as [|a l IH]; cbn [map fold_right]; [lra|]. pose proof (H a (or_introl eq_refl)). specialize (IH ltac:(intros; apply H; right; auto)). lra.
  Qed.

  Lemma bce_nonneg x y : (0 <= y <= 1)%R -> (0 <= bce_logits x y)%R.
  Proof.
    intros H. rewrite bce_simple. assert (L1 : (0 <= ln (1 + exp (- x)))%R) by (rewrite <- ln_1; pose proof (exp_pos (- x)); left; apply ln_increasing; lra).
    assert (L2 : (- x <= ln (1 + exp (- x)))%R) by (rewrite <- (ln_exp (- x)) at 1; pose proof (exp_pos (- x)); left; apply ln_increasing; lra). nra.
  Qed.
  Definition poisson_low (y : R) : R := (y - y * ln y)%R.
  Lemma poisson_ge x y : (0 <= y)%R -> (poisson_low y <= poisson_nll x y)%R.
  Proof.
    intros H. unfold poisson_low, poisson_nll. destruct (Req_dec y 0) as [->|Ny]; [pose proof (exp_pos x); lra|].
    assert (P : (0 < y)%R) by lra. pose proof (exp_ineq1_le (x - ln y)) as Q. unfold Rminus in Q. rewrite exp_plus, exp_Ropp, exp_ln in Q by auto.
    apply (Rmult_le_compat_r y) in Q; [|lra]. rewrite Rmult_assoc, Rinv_l, Rmult_1_r in Q by lra. lra.
  Qed.
  Lemma ln_le x y : (0 < x)%R -> (x <= y)%R -> (ln x <= ln y)%R.
  Proof. intros P [L| ->]; [left; apply ln_increasing; auto|lra]. Qed.
  Lemma member_le l a : In a l -> (exp a <= SklModel.rsum (map exp l))%R.
  Proof.
    assert (G : forall l, (0 <= SklModel.rsum (map exp l))%R). { unfold SklModel.rsum. intros m. induction m as [|b m IH]; cbn; [lra|]. pose proof (exp_pos b). lra. }
    induction l as [|b l IH]; intros I; [destruct I|]. unfold SklModel.rsum in *. cbn [map fold_right]. destruct I as [->|I]; [pose proof (G l); lra|]. pose proof (exp_pos b). specialize (IH I). lra.
  Qed.
  Lemma ce_nonneg l c : c < List.length l -> (0 <= - nth c l 0 + ln (SklModel.rsum (map exp l)))%R.
  Proof.
    intros H. pose proof (member_le l (nth c l 0%R) (nth_In _ _ H)) as M. apply (ln_le _ _ (exp_pos _)) in M. rewrite ln_exp in M. lra.
  Qed.

  Definition row_low (dt : dtype) (x : Qc) : R := match dt_kind dt with Poiss => poisson_low (realq x) | _ => 0%R end.
  Definition type_low (dt : dtype) : R := average (map (row_low dt) (column (dt_idx dt) X)).

  Lemma average_zero {A} (l : list A) : average (map (fun _ => 0%R) l) = 0%R.
  Proof. unfold average. assert (Q : fold_right Rplus 0%R (map (fun _ => 0%R) l) = 0%R) by (induction l as [|a l IH]; cbn; lra). rewrite Q. unfold Rdiv. ring. Qed.
  Lemma average_nonneg l : Forall (fun x => 0 <= x)%R l -> (0 <= average l)%R.
  Proof. intros H. rewrite <- (average_zero l). rewrite <- (map_id l) at 2. apply average_ge. rewrite Forall_forall in H. auto. Qed.

  Lemma get_probs_le os z ps : get_probs os z = Ok ps -> Forall (fun q => q <= 1)%R ps.
  Proof.
    unfold get_probs. set (cum := map (fun o => sigmoid (o - z)%R) os). assert (Bc : Forall (fun c => 0 < c < 1)%R cum) by (apply Forall_map, Forall_forall; intros; apply sigmoid_bounds).
    clearbody cum. destruct cum as [|c0 r]; [discriminate|]. intros Q. injection Q as <-. inversion Bc as [|? ? H0 Hr]; subst.
    constructor; [lra|]. apply Forall_app. split.
    - apply Forall_map, Forall_forall. intros [x y] Hp. cbn [fst snd]. change (In (x, y) (combine (c0 :: r) r)) in Hp. rewrite Forall_forall in Bc, Hr. pose proof (Bc x (in_combine_l _ _ _ _ Hp)). pose proof (Hr y (in_combine_r _ _ _ _ Hp)). lra.
    - constructor; [|constructor]. assert (In (last (c0 :: r) 0%R) (c0 :: r)).
      { rewrite (last_nth (c0 :: r) 0%R). apply nth_In. cbn. lia. }
      rewrite Forall_forall in Bc. specialize (Bc _ H). set (u := last (c0 :: r) 0%R) in *. change (1 - u <= 1)%R. lra.
  Qed.
  Lemma ln_le_0 q : (q <= 1)%R -> (ln q <= 0)%R.
  Proof.
    intros H. destruct (Rlt_le_dec 0 q) as [P|P].
    - rewrite <- ln_1. apply ln_le; auto.
    - unfold ln. destruct (Rlt_dec 0 q) as [Q|Q]; [exfalso; lra|apply Rle_refl].
  Qed.
  Lemma ord_nonneg dt Z l : dt_kind dt = Ord -> dist_loss odds dt X' Z = Ok l -> (0 <= l)%R.
  Proof.
    intros K D. unfold dist_loss in D. rewrite K in D. apply bind_ok in D. destruct D as (ls & Em & D). injection D as <-. rewrite rmean_average. apply average_nonneg.
    revert ls Em. induction (combine (rows X') Z) as [|p l IH]; intros ls Em; cbn [mapM] in Em; [injection Em as <-; constructor|].
    apply bind_ok in Em. destruct Em as (a & E1 & Em). apply bind_ok in Em. destruct Em as (ls' & E2 & Em). injection Em as <-. constructor; [|apply IH; auto].
    apply bind_ok in E1. destruct E1 as (ps & Eg & E1). pose proof (get_probs_le _ _ _ Eg) as Le. rewrite Forall_forall in Le.
    destruct (nth_error ps _) as [q|] eqn:Eq; [|discriminate]. injection E1 as <-. apply nth_error_In in Eq. pose proof (ln_le_0 q (Le q Eq)). lra.
  Qed.

  Lemma type_bound dt Z : In dt dts -> (dt_kind dt = Bin -> forall x, In x (column (dt_idx dt) X) -> (0 <= x)%Qc /\ (x <= 1)%Qc) ->
    (dt_kind dt = Ord -> 2 <= List.length (dt_cats dt)) -> Forall (fun z => List.length z = d) Z -> List.length Z = List.length (rows X) ->
    exists l, dist_loss odds dt X' Z = Ok l /\ (type_low dt <= l)%R.
  Proof.
    intros I Bn Or Wz Lz.
    assert (Lw : type_low dt = average (map (fun p => row_low dt (nth (dt_idx dt) (fst p) 0%Qc)) (combine (rows X) Z))).
    { unfold type_low, column. f_equal. rewrite map_map. transitivity (map (fun r => row_low dt (nth (dt_idx dt) r 0%Qc)) (map fst (combine (rows X) Z))); [|rewrite map_map; auto].
      f_equal. clear - Lz. revert Lz. generalize (rows X). induction Z as [|z Z' IH]; intros [|r rs] L; cbn in *; try discriminate; auto. f_equal. auto. }
    assert (Ic : forall p, In p (combine (rows X) Z) -> In (nth (dt_idx dt) (fst p) 0%Qc) (column (dt_idx dt) X)).
    { intros [r z] Hp. apply in_map_iff. exists r. split; auto. apply (in_combine_l _ _ _ _ Hp). }
    destruct (kind_eq (dt_kind dt) Ord) as [K|K].
    - destruct (prepared_nll ks X t dts X' t' Rc N B E odds Z Od Wz Lz Nr dt I) as (M & _ & (_ & _ & D)).
      + rewrite K. cbn. specialize (Or K). rewrite (cats_of ks X t dts X' t' Rc N B E dt I) in Or by auto. rewrite <- nodup_isort_length. auto.
      + eexists. split; [exact D|]. pose proof (ord_nonneg dt Z _ K D) as P. unfold type_low. rewrite (map_ext _ (fun _ => 0%R)) by (intros; unfold row_low; rewrite K; auto).
        rewrite average_zero. exact P.
    - assert (Bd : Forall (fun j => j < width X') (dt_columns dt)) by (apply Forall_forall; intros j; apply (columns_bound ks X t dts X' t' Rc N B E dt); auto).
      assert (Gl : dt_kind dt = Cat -> List.length (dt_group dt) = List.length (dt_cats dt)) by (intros Kc; apply (group_length ks X t dts X' t' Rc N B E dt I Kc); destruct (rows X); [congruence|discriminate]).
      eexists. split; [apply (loss_rows odds dt X X' Z Lz (cats_of ks X t dts X' t' Rc N B E dt I) (prepare_rows ks X t dts X' t' Rc N B E dt I) (Od dt I) Gl K)|].
      rewrite Lw. apply average_ge. intros p Hp. specialize (Ic p Hp). unfold row_low, row_loss. set (x := nth (dt_idx dt) (fst p) 0%Qc) in *. destruct (dt_kind dt) eqn:Ek.
      + apply bce_nonneg. destruct (Bn eq_refl x Ic) as [H1 H2]. apply realq_le in H1, H2. rewrite realq_0 in H1. rewrite realq_1 in H2. auto.
      + apply ce_nonneg. unfold pick. rewrite map_length, (Gl eq_refl). apply position_lt. rewrite (cats_of ks X t dts X' t' Rc N B E dt I) by auto. apply categories_In. auto.
      + pose proof (pow2_ge_0 (nth (dt_idx dt) (snd p) 0%R - realq x)). lra.
      + congruence.
      + apply poisson_ge. rewrite <- realq_0. apply realq_le. apply (poisson_data ks X t dts X' t' Rc N B E dt I Ek). auto.
  Qed.

  Lemma Qcplus_nonneg a b : (0 <= a)%Qc -> (0 <= b)%Qc -> (0 <= a + b)%Qc.
  Proof. intros H1 H2. replace 0%Qc with (0 + 0)%Qc by ring. apply Qcplus_le_compat; auto. Qed.
  Lemma h_nonneg m1 v i j : (0 <= realq (h_matrix dts d m1 v i j))%R.
  Proof.
    rewrite <- realq_0. apply realq_le. unfold h_matrix. assert (H0 : forall i j, (0 <= square_mat d m1 v i j)%Qc).
    { intros a b. unfold square_mat. apply Qsum_nonneg. intros m _. apply Qc_square_nonneg. }
    revert i j. revert H0. generalize (square_mat d m1 v). clear. induction dts as [|dt l IH]; intros M H0; auto. cbn [fold_left]. apply IH.
    unfold modify_h. destruct (dt_kind dt); auto. destruct (dt_group dt) as [|o ex]; auto.
    assert (Hr : forall i j, (0 <= add_rows o ex M i j)%Qc).
    { intros i j. unfold add_rows. destruct (i =? o); auto. apply Qcplus_nonneg; auto. apply Qsum_nonneg. auto. }
    intros i j. unfold add_cols. destruct (j =? o); auto. apply Qcplus_nonneg; auto. apply Qsum_nonneg. auto.
  Qed.

  Lemma sum_nonneg {A} (f : A -> R) l : (forall a, 0 <= f a)%R -> (0 <= SklModel.rsum (map f l))%R.
  Proof. intros H. unfold SklModel.rsum. induction l as [|a l IH]; cbn [map fold_right]; [lra|]. pose proof (H a). lra. Qed.
  Lemma inv_nonneg n : (0 <= / INR n)%R.
  Proof. destruct n as [|n]; [cbn; rewrite Rinv_0; lra|]. left. apply Rinv_0_lt_compat. apply lt_0_INR. lia. Qed.
  Lemma l1_nonneg n m1 v : (0 <= l1_reg n m1 v)%R.
  Proof. unfold l1_reg, rmean, Rdiv. apply Rmult_le_pos; [apply Rmult_le_pos; [|apply inv_nonneg]|apply pos_INR]. apply sum_nonneg. intros; apply Rabs_pos. Qed.
  Lemma l2_nonneg n ub v : (0 <= l2_reg n ub dims v)%R.
  Proof. unfold l2_reg, Rdiv. apply Rmult_le_pos; [apply Rmult_le_pos; [|apply inv_nonneg]|apply pos_INR]. apply sum_nonneg. intros; apply pow2_ge_0. Qed.

  (** The objective has a lower bound. *)
  Lemma objective_bound ub : (forall i, In (i, Bin) ks -> forall x, In x (column i X) -> (0 <= x)%Qc /\ (x <= 1)%Qc) -> loss_raises dts = false ->
    (0 <= lasso)%R -> (0 <= ridge)%R -> (0 <= rho)%R -> (0 <= alpha)%R -> exists c, forall v, exists f, objective ub v = Ok f /\ (c <= f)%R.
  Proof.
    intros Bn Lr H1 H2 H3 H4. exists (SklModel.rsum (map type_low dts)). intros v.
    assert (T : exists T, total_loss odds dts X' (outputs ub v) = Ok T /\ (SklModel.rsum (map type_low dts) <= T)%R).
    { assert (G : forall dt, In dt dts -> exists l, dist_loss odds dt X' (outputs ub v) = Ok l /\ (type_low dt <= l)%R).
      { intros dt I. destruct (outputs_wf ub v) as [W L]. apply type_bound; auto.
        - intros K. apply Bn. rewrite <- K. apply (dts_kind ks X t dts X' t' Rc N B E). auto.
        - intros K. unfold loss_raises in Lr. destruct (Nat.lt_ge_cases (List.length (dt_cats dt)) 2) as [Q|Q]; auto. exfalso.
          assert (existsb (fun t => match dt_kind t with Ord => List.length (dt_cats t) <? 2 | _ => false end) dts = true); [|congruence].
          apply existsb_exists. exists dt. split; auto. rewrite K. apply Nat.ltb_lt. auto. }
      unfold total_loss. clear - G. induction dts as [|dt l IH]; [exists 0%R; split; [reflexivity|unfold SklModel.rsum; cbn; lra]|].
      destruct (G dt (or_introl eq_refl)) as (a & Ea & La). destruct IH as (T & Et & Lt); [intros; apply G; right; auto|].
      cbn [mapM]. rewrite Ea. cbn [bind]. destruct (mapM _ l) as [ls|]; cbn [bind] in Et |- *; [|discriminate]. injection Et as Et.
      eexists. split; [reflexivity|]. unfold SklModel.rsum in *. cbn [map fold_right]. lra. }
    destruct T as (T & Et & Lt). unfold objective, torch_func. cbv zeta. fold (outputs ub v). rewrite Et. cbn [bind]. eexists. split; [reflexivity|].
    set (h := poly_penalty _ _). assert (Hh : (0 <= h)%R) by (apply poly_nonneg; [intros i j _ _; apply h_nonneg|unfold h_size; lia]).
    pose proof (l1_nonneg (width X') (nth 1 dims 0) v) as P1. pose proof (l2_nonneg (width X') ub v) as P2.
    assert (0 <= rho * h * h)%R by (apply Rmult_le_pos; auto; apply Rmult_le_pos; auto).
    assert (0 <= alpha * h)%R by (apply Rmult_le_pos; auto).
    assert (0 <= ridge * l2_reg (width X') ub dims v)%R by (apply Rmult_le_pos; auto).
    assert (0 <= lasso * l1_reg (width X') (nth 1 dims 0%nat) v)%R by (apply Rmult_le_pos; auto). lra.
  Qed.
End Objective.
