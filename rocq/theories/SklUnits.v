(** * SklUnits: estimators that standardise, and the units of measurement. *)
From Coq Require Import List Bool Arith ZArith Lia String QArith Qcanon Permutation Reals Lra.
From Verif Require Import Base Names Digraph SmModel SmProofs QcX NetModel NotearsModel NotearsProofs NotearsThms AcycLink
  TorchModel TorchSpec TorchProofs TorchThms SklModel SklCoef SklFit SklPairs.
Import ListNotations.
Local Open Scope string_scope.
Local Open Scope list_scope.
Local Open Scope nat_scope.

(** ** Specification *)

(** A unit [(a, b)] turns the number q into [a * q + b] (metres into centimetres, Celsius into Fahrenheit). *)
Definition unit_of : Type := (Qc * Qc)%type.
Definition same_unit : unit_of := (1, 0)%Qc.
Definition in_unit (u : unit_of) (q : Qc) : Qc := (fst u * q + snd u)%Qc.
(** A cell of the data; missing and infinite values stay what they are. *)
Definition cell_in (u : unit_of) (x : fl) : fl := match x with Fin q => Fin (in_unit u q) | x => x end.

(** The same measurements, the i-th column in the unit [u i]. *)
Definition remeasured (u : nat -> unit_of) (X X' : xdata) : Prop :=
  x_cols X' = x_cols X /\ x_index X' = x_index X /\
  Forall2 (fun r r' => List.length r' = List.length r /\ forall i, nth i r' NaN = cell_in (u i) (nth i r NaN)) (x_rows X) (x_rows X').
Definition remeasured_target (u : unit_of) (y y' : ydata) : Prop :=
  y_name y' = y_name y /\ y_index y' = y_index y /\ y_numeric y' = y_numeric y /\ y_vals y' = map (cell_in u) (y_vals y).
Definition remeasured_input (u : nat -> unit_of) (P P' : pdata) : Prop :=
  p_cols P' = p_cols P /\ p_ints P' = p_ints P /\
  Forall2 (fun r r' => List.length r = p_cols P /\ List.length r' = p_cols P /\ forall i, i < p_cols P -> nth i r' 0%Qc = in_unit (u i) (nth i r 0%Qc)) (p_rows P) (p_rows P').

(** A column that the estimator takes as continuous: declared so, or nothing is declared. *)
Definition taken_continuous (c : config) (f : label) : Prop :=
  match c_schema c with Some (x :: r) => In (f, "cont") (x :: r) | _ => True end.

(** Only continuous columns get other units, and larger stays larger. *)
Definition fair_units (c : config) (X : xdata) (u : nat -> unit_of) : Prop :=
  (forall i, (0 < fst (u i))%Qc) /\
  (forall i f, nth_error (map fst (x_cols X)) i = Some f -> ~ taken_continuous c f -> u i = same_unit).

(** The values of a column. *)
Definition column_of (X : xdata) (i : nat) : list Qc := map (fun r => finite_part (nth i r NaN)) (x_rows X).
Definition targets_of (y : ydata) : list Qc := map finite_part (y_vals y).

(** The standard deviation changes with the unit, as it should. *)
Definition scales (sd : list Qc -> Qc) (u : unit_of) (l : list Qc) : Prop := sd (map (in_unit u) l) = (fst u * sd l)%Qc.
(** All values are the same. *)
Definition constant (l : list Qc) : Prop := forall x y, In x l -> In y l -> x = y.

(** The number is the standard deviation of the values. *)
Definition average (l : list Qc) : Qc := (Qsum (fun x => x) l / Q2Qc (inject_Z (Z.of_nat (List.length l))))%Qc.
Definition is_std (s : Qc) (l : list Qc) : Prop := (0 < s)%Qc /\ (s * s = average (map (fun x => (x - average l) * (x - average l)) l))%Qc.

(** ** Arithmetic *)
Local Open Scope Qc_scope.

Lemma count_pos {A} (l : list A) : l <> [] -> Q2Qc (inject_Z (Z.of_nat (List.length l))) <> 0.
Proof.
  intros N Q. destruct l as [|x l]; [congruence|]. assert (Q' : (inject_Z (Z.of_nat (List.length (x :: l))) == 0)%Q).
  { rewrite <- (Qred_correct (inject_Z _)). apply (f_equal this) in Q. cbn [this Q2Qc] in Q. rewrite Q. reflexivity. }
  unfold Qeq in Q'. cbn [inject_Z Qnum Qden List.length] in Q'. lia.
Qed.

Lemma Qsum_const {A} (c : Qc) (l : list A) : Qsum (fun _ => c) l = c * Q2Qc (inject_Z (Z.of_nat (List.length l))).
Proof.
  induction l as [|x l IH]; [rewrite Qsum_nil; change (Q2Qc (inject_Z (Z.of_nat (List.length (@nil A))))) with 0; ring|]. rewrite Qsum_cons, IH. cbn [List.length]. rewrite Nat2Z.inj_succ.
  replace (Q2Qc (inject_Z (Z.succ (Z.of_nat (List.length l))))) with (1 + Q2Qc (inject_Z (Z.of_nat (List.length l)))); [ring|].
  apply Qc_is_canon. cbn [this Qcplus Q2Qc]. rewrite !Qred_correct. unfold Z.succ. rewrite inject_Z_plus. ring.
Qed.

Lemma average_unit u l : l <> [] -> average (map (in_unit u) l) = in_unit u (average l).
Proof.
  intros N. unfold average, in_unit. rewrite map_length, Qsum_map, Qsum_add, Qsum_mul_l, Qsum_const. pose proof (count_pos l N). field. auto.
Qed.

Lemma Qcdiv_swap a b n : a <> 0 -> n = 0 -> (a * b) / (a * n) = b / n.
Proof. intros Ha ->. replace (a * 0) with 0 by ring. unfold Qcdiv. replace (/ 0) with 0 by reflexivity. ring. Qed.

Lemma scale_cancel a b m s q : 0 < a -> (a * q + b - (a * m + b)) / (a * s) = (q - m) / s.
Proof.
  intros Ha. assert (Na : a <> 0) by (intros ->; apply (Qclt_not_eq _ _ Ha); auto). replace (a * q + b - (a * m + b)) with (a * (q - m)) by ring.
  destruct (Qc_eq_dec s 0) as [Z|N]; [apply Qcdiv_swap; auto|]. field. auto.
Qed.

Lemma sq_inj s t : 0 < s -> 0 < t -> s * s = t * t -> s = t.
Proof.
  intros Hs Ht E. assert (Q : (s - t) * (s + t) = 0) by (replace ((s - t) * (s + t)) with (s * s - t * t) by ring; rewrite E; ring).
  apply Qcmult_integral in Q. destruct Q as [Q|Q]; [replace s with ((s - t) + t) by ring; rewrite Q; ring|]. exfalso.
  assert (0 < s + t). { replace 0 with (0 + 0) by ring. apply Qclt_le_trans with (s + 0); [replace (0 + 0) with 0 by ring; replace (s + 0) with s by ring; auto|]. apply Qcplus_le_compat; [apply Qcle_refl|apply Qclt_le_weak; auto]. }
  rewrite Q in H. apply (Qclt_not_eq _ _ H). auto.
Qed.

Lemma unit_pos (x y : Qc) : 0 < x -> 0 < y -> 0 < x * y.
Proof. intros. rewrite <- (Qcmult_0_l y). apply Qcmult_lt_compat_r; auto. Qed.

(** Standard deviations do scale. *)
Lemma std_scales sd u l : l <> [] -> 0 < fst u -> is_std (sd l) l -> is_std (sd (map (in_unit u) l)) (map (in_unit u) l) -> scales sd u l.
Proof.
  intros N Hu [P1 E1] [P2 E2]. unfold scales. apply sq_inj; auto; [apply unit_pos; auto|].
  rewrite E2, average_unit by auto. replace (fst u * sd l * (fst u * sd l)) with (fst u * fst u * (sd l * sd l)) by ring. rewrite E1.
  unfold average. rewrite !map_length. rewrite !Qsum_map. fold (average l).
  rewrite (Qsum_ext _ (fun x => fst u * fst u * ((x - average l) * (x - average l)))) by (intros x _; unfold in_unit; ring). rewrite Qsum_mul_l. unfold Qcdiv. ring.
Qed.

Local Close Scope Qc_scope.

(** ** Rows *)
Lemma scale_row_in {A} (f : Qc * Qc -> A -> A) d (g : nat -> Qc * Qc) is : NoDup is -> forall r j, Forall (fun i => i < List.length r) is -> In j is ->
  nth j (scale_row f d is (map g is) r) d = f (g j) (nth j r d).
Proof.
  intros Nd. induction Nd as [|i is Ni Nd IH]; intros r j H Hj; [destruct Hj|]. inversion H as [|? ? Hi Hr]; subst.
  unfold scale_row. cbn [map combine fold_left fst snd]. fold (scale_row f d is (map g is) (set_nth i (f (g i) (nth i r d)) r)).
  assert (Hr' : Forall (fun i0 => i0 < List.length (set_nth i (f (g i) (nth i r d)) r)) is) by (rewrite set_nth_length; auto).
  destruct Hj as [->|Hj].
  - rewrite scale_row_other; auto. rewrite set_nth_same; auto.
  - rewrite IH; auto. f_equal. apply set_nth_other; auto. intros ->. auto.
Qed.

Lemma nth_all_eq {A} (d : A) l m : List.length l = List.length m -> (forall j, j < List.length l -> nth j l d = nth j m d) -> l = m.
Proof. intros. apply (nth_ext _ _ d d); auto. Qed.

Lemma Forall2_map_eq {A B C} (f : A -> C) (g : B -> C) P l m : Forall2 P l m -> (forall x y, In x l -> P x y -> f x = g y) -> map f l = map g m.
Proof. intros H. induction H as [|x y l m Hxy H IH]; intros Q; cbn [map]; auto. f_equal; [apply Q; [left; auto|auto]|]. apply IH. intros. apply Q; auto. right. auto. Qed.

Lemma finite_cell u x : is_finite (cell_in u x) = is_finite x.
Proof. destruct x; reflexivity. Qed.

Lemma forallb_finite u r r' : List.length r' = List.length r -> (forall i, nth i r' NaN = cell_in (u i) (nth i r NaN)) -> forallb is_finite r' = forallb is_finite r.
Proof.
  revert u r'. induction r as [|x r IH]; intros u [|x' r'] L H; try discriminate; auto. cbn [forallb]. pose proof (H 0) as H0. cbn in H0. rewrite H0, finite_cell. f_equal.
  apply (IH (fun i => u (S i))); [cbn in L; lia|]. intros i. exact (H (S i)).
Qed.

(** The checks of the data do not depend on the units. *)
Lemma check_units u uy X X' y y' : remeasured u X X' -> remeasured_target uy y y' -> check_X_y X' y' = check_X_y X y.
Proof.
  intros (C & _ & R) (_ & _ & _ & V). unfold check_X_y. rewrite C, V, map_length.
  assert (L : List.length (x_rows X') = List.length (x_rows X)) by (clear - R; induction R; cbn; auto). rewrite L.
  assert (F : forallb (forallb is_finite) (x_rows X') = forallb (forallb is_finite) (x_rows X)).
  { clear - R. induction R as [|r r' l m [Hl Hn] R IH]; cbn [forallb]; auto. rewrite IH, (forallb_finite u r r' Hl Hn). auto. }
  rewrite F. assert (G : forallb is_finite (map (cell_in uy) (y_vals y)) = forallb is_finite (y_vals y)).
  { clear. induction (y_vals y) as [|v l IH]; cbn [map forallb]; auto. rewrite finite_cell, IH. auto. }
  rewrite G. reflexivity.
Qed.

Lemma checked X y : check_X_y X y = true -> x_rows X <> [] /\ y_vals y <> [] /\ Forall (Forall (fun x => is_finite x = true)) (x_rows X) /\ Forall (fun x => is_finite x = true) (y_vals y).
Proof.
  unfold check_X_y. rewrite !andb_true_iff. intros [[[[[H1 H2] H3] H4] H5] H6]. apply Nat.eqb_eq in H6.
  assert (N : x_rows X <> []) by (intros Q; rewrite Q in H1; discriminate).
  split; auto. split; [intros Q; apply N; rewrite Q in H6; destruct (x_rows X); [auto|discriminate]|]. split.
  - rewrite Forall_forall. intros r Hr. rewrite Forall_forall. rewrite forallb_forall in H4. specialize (H4 r Hr). rewrite forallb_forall in H4. auto.
  - rewrite Forall_forall. rewrite forallb_forall in H5. auto.
Qed.

(** The column in the new units. *)
Lemma column_units u X X' i : remeasured u X X' -> Forall (Forall (fun x => is_finite x = true)) (x_rows X) -> (forall r, In r (x_rows X) -> i < List.length r) ->
  column_of X' i = map (in_unit (u i)) (column_of X i).
Proof.
  intros (_ & _ & R) F L. unfold column_of. rewrite map_map. symmetry. eapply Forall2_map_eq; [exact R|]. intros r r' Hr [_ Hn]. cbn beta. rewrite Hn.
  rewrite Forall_forall in F. specialize (F r Hr). rewrite Forall_forall in F. specialize (F (nth i r NaN) (nth_In _ _ (L r Hr))). destruct (nth i r NaN); try discriminate. reflexivity.
Qed.

Lemma targets_units u y y' : remeasured_target u y y' -> Forall (fun x => is_finite x = true) (y_vals y) -> targets_of y' = map (in_unit u) (targets_of y).
Proof.
  intros (_ & _ & _ & V) F. unfold targets_of. rewrite V, !map_map. apply map_ext_in. intros x Hx. rewrite Forall_forall in F. specialize (F x Hx). destruct x; try discriminate. reflexivity.
Qed.

(** A standardised value does not depend on the unit. *)
Lemma scaled_cell (sd : list Qc -> Qc) u l q : l <> [] -> (0 < fst u)%Qc -> scales sd u l \/ constant l /\ In q l ->
  ((in_unit u q - mean (map (in_unit u) l)) / sd (map (in_unit u) l) = (q - mean l) / sd l)%Qc.
Proof.
  intros N P H. change (mean (map (in_unit u) l)) with (average (map (in_unit u) l)). rewrite average_unit by auto. change (mean l) with (average l). destruct H as [S|[C I]].
  - rewrite S. apply scale_cancel. auto.
  - assert (A : average l = q). { unfold average. rewrite (Qsum_ext _ (fun _ => q)) by (intros x Hx; apply C; auto). rewrite Qsum_const. pose proof (count_pos l N). field. auto. }
    rewrite A. unfold Qcdiv. ring.
Qed.

(** ** Fitting *)
Section Oracles.
  Context (fuel : nat) (opt : optimiser) (eh : tpenalty) (act : activation) (grad : autograd) (rnd : list Qc) (order : list dtype -> list dtype) (sd : list Qc -> Qc).

  (** The part of the fit after standardisation. *)
  Definition finish (e : est) (sX : option (list nat * list (Qc * Qc))) (sY : option (Qc * Qc)) (X1 : xdata) (y1 : ydata) (schema : list (label * string)) : est * res unit :=
    let c := e_cfg e in
    let cols := map fst (x_cols X1) in
    let name := target_name y1 in
    let schema' := match e_type e with Some a => dset label_eqb schema name a | None => schema end in
    let e2 := mkEst c (e_type e) (e_classes e) sX sY (Some (cols, name)) (e_graph e) in
    let parents := if c_dependent c
                   then match t_parents (c_tabu c) with None => Some [name] | Some l => if lmem name l then Some l else Some (l ++ [name]) end
                   else t_parents (c_tabu c) in
    let outcome : res graphs :=
      do rows <- concat_xy X1 y1;
      if negb (labels_nodup (cols ++ [name])) then Err TypeError
      else
        do l <- torch_pandas fuel opt eh act grad rnd order (mkFrame (x_cols X1 ++ [(name, y_numeric y1)]) rows) (Some schema')
                  (mkTp (c_hidden c) (c_bias c) (Some (c_threshold c)) (c_iter c)) (mkTabu (t_edges (c_tabu c)) parents (t_children (c_tabu c)));
        do g <- if c_enforce c then (let (g, r) := threshold_till_dag (l_graph l) in do _ <- r; Ok g) else Ok (l_graph l);
        Ok (mkGr l g (fun i => fl_column i rows)) in
    match outcome with
    | Err x => (e2, Err x)
    | Ok gr => (mkEst c (e_type e2) (e_classes e2) sX sY (e_names e2) (Some gr), Ok tt)
    end.

  Definition moments (l : list Qc) : Qc * Qc := (mean l, sd l).
  Definition std_X (X : xdata) (is : list nat) : xdata :=
    mkX (x_cols X) (x_index X) (map (scale_row scale_fl NaN is (map (fun i => moments (column_of X i)) is)) (x_rows X)).
  Definition std_y (y : ydata) : ydata := mkY (y_name y) (y_index y) (map (scale_fl (moments (targets_of y))) (y_vals y)) (y_numeric y).

  Lemma base_fit_finish e X y i is : c_standardize (e_cfg e) = true -> check_X_y X y = true ->
    mapM (fun ca => get_loc (map fst (x_cols X)) (fst ca)) (filter (fun ca => String.eqb (snd ca) "cont") (feature_schema (e_cfg e) X)) = Ok (i :: is) ->
    base_fit fuel opt eh act grad rnd order sd e X y =
      if match e_type e with Some a => String.eqb a "cont" | None => false end
      then finish e (Some (i :: is, map (fun i => moments (column_of X i)) (i :: is))) (Some (moments (targets_of y))) (std_X X (i :: is)) (std_y y) (feature_schema (e_cfg e) X)
      else finish e (Some (i :: is, map (fun i => moments (column_of X i)) (i :: is))) (e_scale_y e) (std_X X (i :: is)) y (feature_schema (e_cfg e) X).
  Proof.
    intros St Ch Em. unfold base_fit. rewrite Ch, St. cbn [negb]. cbv zeta. fold (feature_schema (e_cfg e) X). rewrite Em. cbn [bind].
    destruct e as [cf ty cl sx sy nm gr0]. cbn [e_cfg e_type e_scale_y] in *. destruct ty as [a|]; [|reflexivity]. destruct (String.eqb_spec a "cont") as [->|Na]; [reflexivity|].
    repeat (match goal with |- context [match ?b with _ => _ end] => is_var b; destruct b end; try reflexivity; try congruence).
  Qed.

  Lemma base_fit_refused e X y x : c_standardize (e_cfg e) = true -> check_X_y X y = true ->
    mapM (fun ca => get_loc (map fst (x_cols X)) (fst ca)) (filter (fun ca => String.eqb (snd ca) "cont") (feature_schema (e_cfg e) X)) = x ->
    match x with Ok (_ :: _) => False | _ => True end ->
    base_fit fuel opt eh act grad rnd order sd e X y = (e, Err match x with Ok _ => ValueError | Err x => x end).
  Proof.
    intros St Ch Em Hx. unfold base_fit. rewrite Ch, St. cbn [negb]. cbv zeta. fold (feature_schema (e_cfg e) X). rewrite Em. destruct x as [[|j l]|x]; cbn [bind]; [reflexivity|destruct Hx|reflexivity].
  Qed.

  (** Which columns are standardised. *)
  Lemma feature_schema_cont c X f : (In (f, "cont") (feature_schema c X) -> taken_continuous c f) /\ (In f (map fst (x_cols X)) -> taken_continuous c f -> In (f, "cont") (feature_schema c X)).
  Proof.
    unfold taken_continuous, feature_schema. destruct (c_schema c) as [[|x r]|]; split; auto; intros H _; apply in_map_iff; eauto.
  Qed.

  Lemma standardised_columns c X is : wf_cfg c -> NoDup (map fst (x_cols X)) ->
    mapM (fun ca => get_loc (map fst (x_cols X)) (fst ca)) (filter (fun ca => String.eqb (snd ca) "cont") (feature_schema c X)) = Ok is ->
    NoDup is /\ Forall (fun i => i < List.length (x_cols X)) is /\
    forall i f, nth_error (map fst (x_cols X)) i = Some f -> (In i is <-> taken_continuous c f).
  Proof.
    intros Wc Nd E. apply mapM_ok in E.
    assert (Nk : NoDup (map fst (filter (fun ca => String.eqb (snd ca) "cont") (feature_schema c X)))).
    { assert (N0 : NoDup (map fst (feature_schema c X))).
      { unfold feature_schema. destruct (c_schema c) as [[|x r]|] eqn:Es; [rewrite map_map; cbn [fst]; rewrite map_id; auto|apply Wc; auto|rewrite map_map; cbn [fst]; rewrite map_id; auto]. }
      revert N0. generalize (feature_schema c X). clear. induction l as [|x l IH]; cbn [map filter]; intros N; auto. apply NoDup_cons_iff in N. destruct N as [Nx N].
      destruct (String.eqb (snd x) "cont"); auto. cbn [map]. constructor; auto. intros Q. apply Nx. apply in_map_iff in Q. destruct Q as (z & Ez & Hz). apply filter_In in Hz. rewrite <- Ez. apply in_map. tauto. }
    assert (F : Forall2 (fun ca i => nth_error (map fst (x_cols X)) i = Some (fst ca)) (filter (fun ca => String.eqb (snd ca) "cont") (feature_schema c X)) is).
    { clear Nk. induction E; constructor; auto. apply get_loc_lt; auto. }
    clear E. split; [|split].
    - clear - Nk F. induction F as [|ca i l m H F IH]; constructor; [|apply IH; cbn in Nk; apply NoDup_cons_iff in Nk; tauto].
      cbn in Nk. apply NoDup_cons_iff in Nk. destruct Nk as [Nx _]. intros Hi. apply Nx. clear - F H Hi. induction F as [|ca' i' l m H' F IH]; [destruct Hi|]. cbn [map]. destruct Hi as [->|Hi]; [left; congruence|right; auto].
    - clear - F. induction F as [|ca i l m H F IH]; constructor; auto. rewrite <- (map_length fst (x_cols X)). apply nth_error_Some. congruence.
    - intros i f Hf. split.
      + intros Hi. clear Nk. assert (Q : exists ca, In ca (filter (fun ca => String.eqb (snd ca) "cont") (feature_schema c X)) /\ nth_error (map fst (x_cols X)) i = Some (fst ca)).
        { clear - F Hi. induction F as [|ca j l m H F IH]; [destruct Hi|]. destruct Hi as [->|Hi]; [exists ca; split; auto; left; auto|]. destruct (IH Hi) as (ca' & I & E). exists ca'. split; auto. right. auto. }
        destruct Q as (ca & I & E). apply filter_In in I. destruct I as [I S]. apply String.eqb_eq in S. rewrite Hf in E. injection E as ->. apply (feature_schema_cont c X). destruct ca as [a s]. cbn in *. subst. auto.
      + intros T. assert (I : In (f, "cont") (filter (fun ca => String.eqb (snd ca) "cont") (feature_schema c X))).
        { apply filter_In. split; [|reflexivity]. apply feature_schema_cont; auto. eapply nth_error_In; eauto. }
        clear - F I Hf Nd. induction F as [|ca j l m H F IH]; [destruct I|]. destruct I as [->|I]; [|right; auto]. left. cbn in H. eapply (NoDup_nth_error (map fst (x_cols X))); auto; [apply nth_error_Some; congruence|congruence].
  Qed.

  Lemma std_X_units c u X X' is : remeasured u X X' -> wf_x X -> fair_units c X u -> x_rows X <> [] -> Forall (Forall (fun x => is_finite x = true)) (x_rows X) ->
    NoDup is -> Forall (fun i => i < List.length (x_cols X)) is -> (forall i f, nth_error (map fst (x_cols X)) i = Some f -> (In i is <-> taken_continuous c f)) ->
    (forall i, In i is -> scales sd (u i) (column_of X i) \/ constant (column_of X i)) ->
    std_X X' is = std_X X is.
  Proof.
    intros Rm [Wr Wi] [Up Us] Nr Fi Nd Il Ic Sc. pose proof Rm as (Cc & Ci & Cr). unfold std_X. rewrite Cc, Ci. f_equal. symmetry.
    eapply Forall2_map_eq; [exact Cr|]. intros r r' Hr [Hl Hn]. cbn beta.
    assert (Lr : List.length r = List.length (x_cols X)) by (rewrite Forall_forall in Wr; auto).
    assert (B : Forall (fun i => i < List.length r) is) by (rewrite Lr; auto). assert (B' : Forall (fun i => i < List.length r') is) by (rewrite Hl; auto).
    apply (nth_all_eq NaN); [rewrite !scale_row_length; auto|]. intros j Hj. rewrite scale_row_length in Hj by auto.
    destruct (in_dec Nat.eq_dec j is) as [I|I].
    - rewrite !scale_row_in by auto. rewrite Hn.
      assert (Cl : forall r, In r (x_rows X) -> j < List.length r) by (intros r0 H0; rewrite Forall_forall in Wr; rewrite (Wr r0 H0), <- Lr; auto).
      unfold moments. rewrite (column_units u X X' j) by auto.
      rewrite Forall_forall in Fi. specialize (Fi r Hr). rewrite Forall_forall in Fi. specialize (Fi (nth j r NaN) (nth_In _ _ Hj)). destruct (nth j r NaN) as [q| | |] eqn:Eq; try discriminate.
      cbn [cell_in scale_fl fst snd]. f_equal. symmetry. apply scaled_cell; auto; [unfold column_of; destruct (x_rows X); [congruence|discriminate]|].
      destruct (Sc j I) as [S|S]; auto. right. split; auto. unfold column_of. apply in_map_iff. exists r. rewrite Eq. auto.
    - rewrite !scale_row_other by auto. rewrite Hn. assert (Q : exists f, nth_error (map fst (x_cols X)) j = Some f).
      { destruct (nth_error (map fst (x_cols X)) j) as [f|] eqn:E; eauto. apply nth_error_None in E. rewrite map_length in E. lia. }
      destruct Q as (f & Hf). assert (Nt : ~ taken_continuous c f) by (intros Q; apply I, (Ic j f Hf); auto). rewrite (Us j f Hf Nt).
      destruct (nth j r NaN); cbn [cell_in]; auto. f_equal. unfold in_unit, same_unit. cbn [fst snd]. ring.
  Qed.

  Lemma std_y_units u y y' : remeasured_target u y y' -> (0 < fst u)%Qc -> y_vals y <> [] -> Forall (fun x => is_finite x = true) (y_vals y) ->
    scales sd u (targets_of y) \/ constant (targets_of y) -> std_y y' = std_y y.
  Proof.
    intros Rm Hu Ny Fy Sc. pose proof Rm as (En & Ei & Eu & Ev). unfold std_y, moments. rewrite (targets_units u y y' Rm Fy), En, Ei, Eu, Ev, map_map. f_equal. apply map_ext_in. intros x Hx.
    rewrite Forall_forall in Fy. pose proof (Fy x Hx) as Fx. destruct x as [q| | |]; try discriminate. cbn [cell_in scale_fl fst snd]. f_equal. apply scaled_cell; auto.
    - unfold targets_of. destruct (y_vals y); [congruence|discriminate].
    - destruct Sc as [S|S]; auto. right. split; auto. unfold targets_of. apply in_map_iff. exists (Fin q). auto.
  Qed.

  Lemma same_unit_id x : cell_in same_unit x = x.
  Proof. destruct x; auto. cbn. f_equal. unfold in_unit, same_unit. cbn. ring. Qed.

  (** The same estimator except for the remembered scales. *)
  Definition same_but_scales (e e' : est) : Prop :=
    e_cfg e' = e_cfg e /\ e_type e' = e_type e /\ e_classes e' = e_classes e /\ e_names e' = e_names e /\ e_graph e' = e_graph e.

  Lemma finish_same e sX sY sX' sY' X1 y1 schema : let f := finish e sX sY X1 y1 schema in let f' := finish e sX' sY' X1 y1 schema in
    snd f' = snd f /\ same_but_scales (fst f) (fst f') /\ e_scale_X (fst f) = sX /\ e_scale_y (fst f) = sY /\ e_scale_X (fst f') = sX' /\ e_scale_y (fst f') = sY' /\ e_cfg (fst f) = e_cfg e /\ e_type (fst f) = e_type e.
  Proof.
    cbv zeta. unfold finish. match goal with |- context [match ?o with Ok gr => _ | Err x => _ end] => destruct o end; unfold same_but_scales; cbn; auto 20.
  Qed.

  Definition is_cont (e : est) : bool := match e_type e with Some a => String.eqb a "cont" | None => false end.

  Theorem base_units e X X' y y' u uy : c_standardize (e_cfg e) = true -> wf_x X -> wf_cfg (e_cfg e) -> NoDup (map fst (x_cols X)) ->
    fair_units (e_cfg e) X u -> remeasured u X X' -> remeasured_target uy y y' -> (0 < fst uy)%Qc -> (e_type e = Some "cont" \/ uy = same_unit) ->
    (forall i f, nth_error (map fst (x_cols X)) i = Some f -> taken_continuous (e_cfg e) f -> scales sd (u i) (column_of X i) \/ constant (column_of X i)) ->
    (e_type e = Some "cont" -> scales sd uy (targets_of y) \/ constant (targets_of y)) ->
    let f := base_fit fuel opt eh act grad rnd order sd e X y in let f' := base_fit fuel opt eh act grad rnd order sd e X' y' in
    snd f' = snd f /\ same_but_scales (fst f) (fst f') /\
    (snd f = Ok tt -> exists is, NoDup is /\ Forall (fun i => i < List.length (x_cols X)) is /\
      (forall i f, nth_error (map fst (x_cols X)) i = Some f -> (In i is <-> taken_continuous (e_cfg e) f)) /\
      e_cfg (fst f) = e_cfg e /\ e_type (fst f) = e_type e /\ check_X_y X y = true /\
      e_scale_X (fst f) = Some (is, map (fun i => moments (column_of X i)) is) /\ e_scale_X (fst f') = Some (is, map (fun i => moments (column_of X' i)) is) /\
      (e_type e = Some "cont" -> e_scale_y (fst f) = Some (moments (targets_of y)) /\ e_scale_y (fst f') = Some (moments (targets_of y')))).
  Proof.
    intros St Wx Wc Nd Fu Rm Rt Hu Ty Sx Sy. cbv zeta. pose proof (check_units _ _ _ _ _ _ Rm Rt) as Ck. pose proof Rm as (Cc & Ci & Cr). pose proof Rt as (En & Ei & Eu & Ev).
    destruct (check_X_y X y) eqn:C0.
    2:{ unfold base_fit. rewrite Ck, C0. cbn. unfold same_but_scales. intuition discriminate. }
    assert (Sch : feature_schema (e_cfg e) X' = feature_schema (e_cfg e) X) by (unfold feature_schema; rewrite Cc; auto).
    destruct (mapM (fun ca => get_loc (map fst (x_cols X)) (fst ca)) (filter (fun ca => String.eqb (snd ca) "cont") (feature_schema (e_cfg e) X))) as [[|i is]|x] eqn:Em.
    1,3: rewrite (base_fit_refused e X y _ St C0 Em) by exact I; erewrite (base_fit_refused e X' y' _ St Ck) by (rewrite ?Cc, ?Sch; first [exact Em|exact I]); cbn; unfold same_but_scales; intuition discriminate.
    assert (Em' : mapM (fun ca => get_loc (map fst (x_cols X')) (fst ca)) (filter (fun ca => String.eqb (snd ca) "cont") (feature_schema (e_cfg e) X')) = Ok (i :: is)) by (rewrite Cc, Sch; auto).
    rewrite (base_fit_finish e X y i is St C0 Em), (base_fit_finish e X' y' i is St Ck Em'). rewrite Sch. destruct (checked _ _ C0) as (Nx & Ny & Fx & Fy).
    destruct (standardised_columns _ _ _ Wc Nd Em) as (Ni & Il & Ic).
    rewrite (std_X_units (e_cfg e) u X X' (i :: is) Rm Wx Fu Nx Fx Ni Il Ic).
    2:{ intros j Hj. assert (Q : exists f, nth_error (map fst (x_cols X)) j = Some f).
        { destruct (nth_error (map fst (x_cols X)) j) as [f|] eqn:E; eauto. apply nth_error_None in E. rewrite map_length in E. rewrite Forall_forall in Il. specialize (Il j Hj). lia. }
        destruct Q as (f & Hf). apply (Sx j f Hf). apply (Ic j f Hf). auto. }
    destruct (match e_type e with Some a => String.eqb a "cont" | None => false end) eqn:T.
    - assert (Te : e_type e = Some "cont") by (destruct (e_type e); [apply String.eqb_eq in T; congruence|discriminate]).
      rewrite (std_y_units uy y y') by auto.
      match goal with |- snd ?f' = snd ?f /\ _ => destruct (finish_same e (Some (i :: is, map (fun i => moments (column_of X i)) (i :: is))) (Some (moments (targets_of y))) (Some (i :: is, map (fun i => moments (column_of X' i)) (i :: is))) (Some (moments (targets_of y'))) (std_X X (i :: is)) (std_y y) (feature_schema (e_cfg e) X)) as (F1 & F2 & F3 & F4 & F5 & F6 & F7 & F8) end.
      split; [exact F1|]. split; [exact F2|]. intros _. exists (i :: is). split; [exact Ni|]. split; [exact Il|]. split; [exact Ic|]. split; [exact F7|]. split; [exact F8|]. split; [reflexivity|]. split; [exact F3|]. split; [exact F5|]. intros _. split; [exact F4|exact F6].
    - assert (Y : y' = y). { destruct Ty as [Te| ->]; [rewrite Te in T; discriminate|]. destruct y as [n ix vs nu], y' as [n' ix' vs' nu']. cbn in *. rewrite (map_ext _ _ same_unit_id), map_id in Ev. congruence. }
      rewrite Y.
      match goal with |- snd ?f' = snd ?f /\ _ => destruct (finish_same e (Some (i :: is, map (fun i => moments (column_of X i)) (i :: is))) (e_scale_y e) (Some (i :: is, map (fun i => moments (column_of X' i)) (i :: is))) (e_scale_y e) (std_X X (i :: is)) y (feature_schema (e_cfg e) X)) as (F1 & F2 & F3 & F4 & F5 & F6 & F7 & F8) end.
      split; [exact F1|]. split; [exact F2|]. intros _. exists (i :: is). split; [exact Ni|]. split; [exact Il|]. split; [exact Ic|]. split; [exact F7|]. split; [exact F8|]. split; [reflexivity|]. split; [exact F3|]. split; [exact F5|]. intros Q. rewrite Q in T. discriminate.
  Qed.
End Oracles.
