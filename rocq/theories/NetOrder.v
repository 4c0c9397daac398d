(** * NetOrder: fitting does not depend on the order of rows and columns, nor on other columns;
      prediction goes row by row (proofs). *)
From Coq Require Import List Bool Arith ZArith Lia String QArith Qcanon Permutation Sorted.
From Verif Require Import Base QcX Digraph SmModel SmProofs SmHist NetModel NetProofs NetFit NetThms.
Import ListNotations.
Local Open Scope Qc_scope.
Local Open Scope list_scope.

(** ** States *)
Lemma olabel_eqb_spec x y : reflect (x = y) (olabel_eqb x y).
Proof.
  destruct x as [a|], y as [c|]; simpl; try (constructor; congruence).
  destruct (label_eqb_spec a c); constructor; congruence.
Qed.

Lemma unique_acc (l : list (option label)) : forall acc, NoDup acc ->
  let u := fold_left (fun acc x => if memb olabel_eqb x acc then acc else acc ++ [x]) l acc in
  NoDup u /\ forall x, In x u <-> In x acc \/ In x l.
Proof.
  induction l as [|y l IH]; intros acc N; simpl; [split; [auto|tauto]|].
  destruct (memb olabel_eqb y acc) eqn:E.
  - destruct (IH acc N) as [A B]. split; [exact A|]. intros x. rewrite B.
    apply (memb_In _ olabel_eqb_spec) in E. intuition (subst; auto).
  - assert (~ In y acc) by (intros H; apply (memb_In _ olabel_eqb_spec) in H; congruence).
    destruct (IH (acc ++ [y])) as [A B].
    { apply (Permutation_NoDup (Permutation_cons_append acc y)). constructor; auto. }
    split; [exact A|]. intros x. rewrite B, in_app_iff. simpl. tauto.
Qed.

Lemma unique_perm (l l' : list (option label)) : (forall x, In x l <-> In x l') -> Permutation (unique olabel_eqb l) (unique olabel_eqb l').
Proof.
  intros H. destruct (unique_acc l [] (NoDup_nil _)) as [A B]. destruct (unique_acc l' [] (NoDup_nil _)) as [A' B'].
  apply NoDup_Permutation; auto. intros x. unfold unique. rewrite B, B'. simpl. rewrite H. tauto.
Qed.

Lemma drop_none_perm {A} (l l' : list (option A)) : Permutation l l' -> Permutation (drop_none l) (drop_none l').
Proof. induction 1; simpl; repeat match goal with x : option A |- _ => destruct x end; eauto using perm_swap, perm_trans, Permutation. Qed.

Lemma forallb_perm {A} (f : A -> bool) l l' : Permutation l l' -> forallb f l = forallb f l'.
Proof. induction 1; simpl; auto; try congruence. destruct (f x), (f y); auto. Qed.

Lemma existsb_perm {A} (f : A -> bool) l l' : Permutation l l' -> existsb f l = existsb f l'.
Proof. induction 1; simpl; auto; try congruence. destruct (f x), (f y); auto. Qed.

Lemma sorted_labels_perm l l' : Permutation l l' -> sorted_labels l = sorted_labels l'.
Proof.
  intros H. unfold sorted_labels. rewrite (forallb_perm is_int l l' H), (forallb_perm (fun x => negb (is_int x)) l l' H).
  destruct (_ || _); auto. f_equal. apply (lsort_perm l l' H).
Qed.

Lemma set_node_states_perm b (cs : list string) (f g : string -> list (option label)) :
  (forall c, In c cs -> Permutation (f c) (g c)) ->
  set_node_states b (map (fun c => (c, f c)) cs) = set_node_states b (map (fun c => (c, g c)) cs).
Proof.
  intros H. unfold set_node_states, dkeys. rewrite !map_map. simpl.
  destruct (negb _); auto.
  assert (E : existsb (fun ns : string * list (option label) => existsb (fun s => match s with None => true | Some _ => false end) (snd ns)) (map (fun c => (c, f c)) cs)
            = existsb (fun ns : string * list (option label) => existsb (fun s => match s with None => true | Some _ => false end) (snd ns)) (map (fun c => (c, g c)) cs)).
  { clear -H. induction cs as [|c cs IH]; simpl; auto. rewrite IH by (intros; apply H; right; auto).
    f_equal. apply existsb_perm. apply H. left; auto. }
  rewrite E.
  assert (E2 : mapM (fun ns : string * list (option label) => do l <- sorted_labels (drop_none (snd ns)); Ok (fst ns, number l)) (map (fun c => (c, f c)) cs)
            = mapM (fun ns : string * list (option label) => do l <- sorted_labels (drop_none (snd ns)); Ok (fst ns, number l)) (map (fun c => (c, g c)) cs)).
  { clear -H. induction cs as [|c cs IH]; simpl; auto. rewrite IH by (intros; apply H; right; auto).
    rewrite (sorted_labels_perm (drop_none (f c)) (drop_none (g c))); auto. apply drop_none_perm. apply H. left; auto. }
  rewrite E2. reflexivity.
Qed.

Theorem states_order b cols rows rows' : (forall r, In r rows <-> In r rows') ->
  fit_node_states b (mkDf cols rows) = fit_node_states b (mkDf cols rows').
Proof.
  intros H. unfold fit_node_states. simpl.
  apply (set_node_states_perm b cols (fun c => unique olabel_eqb (map (fun r => at_col r c) rows)) (fun c => unique olabel_eqb (map (fun r => at_col r c) rows'))).
  intros c _. apply unique_perm. intros x. rewrite !in_map_iff. split; intros (r & <- & I); exists r; split; auto; apply H; auto.
Qed.

(** ** Tables *)
Lemma filter_perm {A} (f : A -> bool) l l' : Permutation l l' -> Permutation (filter f l) (filter f l').
Proof.
  induction 1; simpl; auto.
  - destruct (f x); auto.
  - destruct (f x), (f y); auto. apply perm_swap.
  - eapply perm_trans; eauto.
Qed.

Lemma state_count_perm rs rs' v i ps u : Permutation rs rs' -> state_count rs v i ps u = state_count rs' v i ps u.
Proof. intros H. unfold state_count. apply Permutation_length. apply filter_perm. auto. Qed.

Lemma estimate_perm st rs rs' sm ps v : Permutation rs rs' -> estimate_cpd st rs sm ps v = estimate_cpd st rs' sm ps v.
Proof.
  intros H. unfold estimate_cpd. f_equal. apply map_ext. intros i. f_equal. apply map_ext. intros u. f_equal. f_equal.
  apply map_ext. intros j. rewrite (state_count_perm rs rs'); auto.
Qed.

Lemma coded_proj st vs r : coded st vs r = map (fun vx => (fst vx, code (states_at st (fst vx)) (snd vx))) (combine vs (map (at_col r) vs)).
Proof. unfold coded. induction vs as [|v vs IH]; simpl; auto. rewrite IH. auto. Qed.

Lemma coded_perm st vs rows rows' : Permutation (map (fun r => map (at_col r) vs) rows) (map (fun r => map (at_col r) vs) rows') ->
  Permutation (map (coded st vs) rows) (map (coded st vs) rows').
Proof.
  intros H.
  assert (E : forall l, map (coded st vs) l =
     map (fun xs => map (fun vx => (fst vx, code (states_at st (fst vx)) (snd vx))) (combine vs xs)) (map (fun r => map (at_col r) vs) l)).
  { intros l. rewrite map_map. apply map_ext. intros r. apply coded_proj. }
  rewrite !E. apply Permutation_map. exact H.
Qed.

Theorem tables_order b d d' method prior ess :
  (forall v, In v (b_nodes b) -> In v (d_cols d) <-> In v (d_cols d')) ->
  Permutation (map (fun r => map (at_col r) (b_nodes b)) (d_rows d)) (map (fun r => map (at_col r) (b_nodes b)) (d_rows d')) ->
  fit_cpds b d method prior ess = fit_cpds b d' method prior ess.
Proof.
  intros HC HP. unfold fit_cpds. destruct (b_states b) as [st|]; auto.
  assert (EC : forallb (fun v => smem v (d_cols d)) (b_nodes b) = forallb (fun v => smem v (d_cols d')) (b_nodes b)).
  { apply eq_true_iff_eq. rewrite !forallb_forall. split; intros H v I; specialize (H v I); apply smem_In; apply smem_In in H; apply (HC v I); auto. }
  rewrite EC. destruct (negb _); auto.
  assert (PF : Permutation (filter full (map (coded st (b_nodes b)) (d_rows d))) (filter full (map (coded st (b_nodes b)) (d_rows d')))).
  { apply filter_perm. apply coded_perm. auto. }
  assert (EM : forall sm : list string -> string -> smoothing,
    map (fun v => let ps := ssort (get_parents b v) in (v, estimate_cpd st (filter full (map (coded st (b_nodes b)) (d_rows d))) (sm ps v) ps v)) (ssort (b_nodes b)) =
    map (fun v => let ps := ssort (get_parents b v) in (v, estimate_cpd st (filter full (map (coded st (b_nodes b)) (d_rows d'))) (sm ps v) ps v)) (ssort (b_nodes b))).
  { intros sm. apply map_ext. intros v. simpl. f_equal. apply estimate_perm. auto. }
  cbv zeta. cbv zeta in EM.
  rewrite (EM (fun _ _ => MLE)), (EM (fun _ _ => Pseudo 1)).
  destruct (String.eqb method "MaximumLikelihoodEstimator"); auto. destruct (String.eqb method "BayesianEstimator"); auto.
  destruct prior as [p|]; auto. destruct (String.eqb p "K2"); auto. destruct (String.eqb p "BDeu"); auto.
  destruct ess as [e|]; auto. rewrite (EM (fun ps v => Pseudo (bdeu st e ps v))). auto.
Qed.

(** ** Repeating the data *)
Lemma filter_concat {A} (f : A -> bool) ls : filter f (List.concat ls) = List.concat (map (filter f) ls).
Proof. induction ls as [|l ls IH]; simpl; auto. rewrite filter_app, IH. auto. Qed.

Lemma filter_repeat {A} (f : A -> bool) l k : filter f (List.concat (repeat l k)) = List.concat (repeat (filter f l) k).
Proof. induction k as [|k IH]; simpl; auto. rewrite filter_app, IH. auto. Qed.

Lemma length_repeat {A} (l : list A) k : List.length (List.concat (repeat l k)) = (k * List.length l)%nat.
Proof. induction k as [|k IH]; simpl; auto. rewrite app_length, IH. auto. Qed.

Lemma state_count_repeat rs k v i ps u : state_count (List.concat (repeat rs k)) v i ps u = (k * state_count rs v i ps u)%nat.
Proof. unfold state_count. rewrite filter_repeat. apply length_repeat. Qed.

Lemma sum_list_scale (k : Qc) l : sum_list (map (fun c => k * c) l) = k * sum_list l.
Proof. unfold sum_list. induction l as [|x l IH]; simpl; [ring|]. rewrite IH. ring. Qed.

Lemma Qcinv_0 : / (0:Qc) = 0.
Proof. apply Qc_is_canon. reflexivity. Qed.

Lemma scale_div (k c s : Qc) : k <> 0 -> (k * c) / (k * s) = c / s.
Proof.
  intros H. destruct (Qc_eq_dec s 0) as [->|N].
  - unfold Qcdiv. replace (k * 0) with (0:Qc) by ring. rewrite Qcinv_0. ring.
  - field. split; auto.
Qed.

Lemma normalize_scale k l : k <> 0 -> normalize (map (fun c => k * c) l) = normalize l.
Proof. intros H. unfold normalize. rewrite map_map, sum_list_scale. apply map_ext. intros c. apply scale_div. auto. Qed.

Lemma column_scale k l : k <> 0 -> normalize (column MLE (map (fun c => k * c) l)) = normalize (column MLE l).
Proof.
  intros H. unfold column.
  assert (E : forallb (fun c => Qc_eq_bool c 0) (map (fun c => k * c) l) = forallb (fun c => Qc_eq_bool c 0) l).
  { induction l as [|c l IH]; simpl; auto. rewrite IH. f_equal. apply eq_true_iff_eq. split; intros G; apply Qc_eq_bool_correct in G.
    - apply Qcmult_integral in G. destruct G as [G|G]; [contradiction|]. rewrite G. reflexivity.
    - rewrite G. replace (k * 0) with (0:Qc) by ring. reflexivity. }
  rewrite E. destruct (forallb _ l).
  - rewrite map_map. auto.
  - apply normalize_scale. auto.
Qed.

Lemma estimate_repeat st rs k ps v : estimate_cpd st (List.concat (repeat rs (S k))) MLE ps v = estimate_cpd st rs MLE ps v.
Proof.
  unfold estimate_cpd. f_equal. apply map_ext. intros i. f_equal. apply map_ext. intros u.
  rewrite <- (column_scale (Qc_of_nat (S k)) (map (fun j => Qc_of_nat (state_count rs v j ps u)) (seq 0 (card st v)))).
  - f_equal. f_equal. rewrite map_map. apply map_ext. intros j. rewrite state_count_repeat. apply Qc_of_nat_mul.
  - apply Qc_of_nat_pos. lia.
Qed.

Theorem repeat_data b cols rows k prior ess :
  fit_cpds b (mkDf cols (List.concat (repeat rows (S k)))) "MaximumLikelihoodEstimator" prior ess =
  fit_cpds b (mkDf cols rows) "MaximumLikelihoodEstimator" prior ess.
Proof.
  unfold fit_cpds. destruct (b_states b) as [st|]; auto. simpl d_cols. destruct (negb _); auto.
  change (String.eqb "MaximumLikelihoodEstimator" "MaximumLikelihoodEstimator") with true. cbv iota zeta. simpl d_rows.
  f_equal. f_equal. apply map_ext. intros v. f_equal.
  assert (E : filter full (map (coded st (b_nodes b)) (List.concat (repeat rows (S k)))) = List.concat (repeat (filter full (map (coded st (b_nodes b)) rows)) (S k))).
  { rewrite <- filter_repeat. f_equal. generalize (S k). intros n. induction n as [|n IH]; simpl; auto. rewrite map_app, IH. auto. }
  change (rows ++ List.concat (repeat rows k)) with (List.concat (repeat rows (S k))). rewrite E. apply estimate_repeat.
Qed.

(** ** Prediction row by row *)
Lemma mapM_app {A B} (f : A -> res B) l m : mapM f (l ++ m) = (do p <- mapM f l; do q <- mapM f m; Ok (p ++ q)).
Proof.
  induction l as [|x l IH]; simpl.
  - destruct (mapM f m); auto.
  - destruct (f x); simpl; auto. rewrite IH. destruct (mapM f l); simpl; auto. destruct (mapM f m); simpl; auto.
Qed.

Theorem predict_rows pg b cols xs ys v :
  predict pg b (mkDf cols (xs ++ ys)) v =
  (do p <- predict pg b (mkDf cols xs) v; do q <- predict pg b (mkDf cols ys) v; Ok (p ++ q)).
Proof.
  unfold predict. unfold has_parents. simpl d_cols. destruct (smem v (b_nodes b)); simpl; auto.
  destruct (forallb _ _).
  - unfold predict_complete. simpl d_rows. destruct (frame_of b v) as [f|]; simpl; auto. apply mapM_app.
  - unfold predict_incomplete, evidence. simpl d_cols. simpl d_rows. destruct (b_states b); simpl; auto.
    destruct (negb _); simpl; auto. destruct (negb _); simpl; auto. destruct (negb _); simpl; auto.
    rewrite mapM_app. destruct (mapM _ xs); simpl; auto. destruct (mapM _ ys); simpl; auto. rewrite map_app. auto.
Qed.

Lemma mapM_app_ok {A B} (f : A -> res B) l m o : mapM f (l ++ m) = Ok o <-> exists p q, mapM f l = Ok p /\ mapM f m = Ok q /\ o = p ++ q.
Proof.
  rewrite mapM_app. destruct (mapM f l) as [p|x] eqn:El; simpl.
  - destruct (mapM f m) as [q|x] eqn:Em; simpl.
    + split; [intros H; injection H as <-; eauto|]. intros (p' & q' & H1 & H2 & ->). congruence.
    + split; [discriminate|]. intros (p' & q' & H1 & H2 & ->). congruence.
  - split; [discriminate|]. intros (p' & q' & H1 & H2 & ->). congruence.
Qed.

Lemma foldM_write_app f ps v order : forall xs ys o,
  foldM (write_state f ps v) order (xs ++ ys) = Ok o <->
  exists p q, foldM (write_state f ps v) order xs = Ok p /\ foldM (write_state f ps v) order ys = Ok q /\ o = p ++ q.
Proof.
  induction order as [|s order IH]; intros xs ys o; simpl.
  - split; [intros H; injection H as <-; eauto|]. intros (p & q & H1 & H2 & ->). congruence.
  - split.
    + intros H. apply bind_ok in H. destruct H as (z & H1 & H2). unfold write_state in H1 at 1.
      apply mapM_app_ok in H1. destruct H1 as (p & q & Hp & Hq & ->). apply IH in H2. destruct H2 as (p' & q' & A & B & ->).
      exists p', q'. unfold write_state at 1. rewrite Hp. unfold write_state at 2. rewrite Hq. simpl. auto.
    + intros (p & q & H1 & H2 & ->). apply bind_ok in H1. destruct H1 as (p1 & H1 & H1'). apply bind_ok in H2. destruct H2 as (q1 & H2 & H2').
      unfold write_state at 1. rewrite mapM_app. unfold write_state in H1 at 1. unfold write_state in H2 at 1. rewrite H1, H2. simpl.
      apply IH. eauto.
Qed.

Theorem probability_rows order pg b cols xs ys v cs o :
  predict_probability order pg b (mkDf cols (xs ++ ys)) v = Ok (cs, o) <->
  exists p q, predict_probability order pg b (mkDf cols xs) v = Ok (cs, p) /\
              predict_probability order pg b (mkDf cols ys) v = Ok (cs, q) /\ o = p ++ q.
Proof.
  unfold predict_probability, has_parents. simpl d_cols. destruct (smem v (b_nodes b)); simpl.
  2: { split; [discriminate|]. intros (p & q & H & _). discriminate. }
  destruct (forallb _ _).
  - unfold predict_prob_complete. simpl d_rows. destruct (frame_of b v) as [f|]; simpl.
    2: { split; [discriminate|]. intros (p & q & H & _). discriminate. }
    rewrite map_app. split.
    + intros H. apply bind_ok in H. destruct H as (rs & H1 & H2). apply foldM_write_app in H1. destruct H1 as (r1 & r2 & A & B & ->).
      apply bind_ok in H2. destruct H2 as (out & H2 & H3). injection H3 as <- <-. apply mapM_app_ok in H2. destruct H2 as (p & q & C & D & ->).
      exists p, q. rewrite A, B. simpl. rewrite C, D. simpl. auto.
    + intros (p & q & H1 & H2 & ->). apply bind_ok in H1. destruct H1 as (r1 & A & H1). apply bind_ok in H1. destruct H1 as (o1 & C & H1). injection H1 as <- <-.
      apply bind_ok in H2. destruct H2 as (r2 & B & H2). apply bind_ok in H2. destruct H2 as (o2 & D & H2). injection H2 as <-.
      assert (E : foldM (write_state f (ssort (get_parents b v)) v) order (map start_row xs ++ map start_row ys) = Ok (r1 ++ r2)) by (apply foldM_write_app; eauto).
      rewrite E. simpl. rewrite mapM_app, C, D. reflexivity.
  - unfold predict_prob_incomplete, evidence. simpl d_cols. simpl d_rows. destruct (b_states b) as [st|]; simpl.
    2: { split; [discriminate|]. intros (p & q & H & _). discriminate. }
    destruct (negb _); simpl; [split; [discriminate|]; intros (p & q & H & _); discriminate|].
    destruct (negb _); simpl; [split; [discriminate|]; intros (p & q & H & _); discriminate|].
    destruct (negb _); simpl; [split; [discriminate|]; intros (p & q & H & _); discriminate|].
    rewrite mapM_app. destruct (mapM _ xs) as [ex|]; simpl.
    2: { split; [discriminate|]. intros (p & q & H & _). discriminate. }
    destruct (mapM _ ys) as [ey|]; simpl.
    2: { split; [discriminate|]. intros (p & q & _ & H & _). discriminate. }
    rewrite !map_app. split.
    + intros H. injection H as <- <-. eauto.
    + intros (p & q & H1 & H2 & ->). injection H1 as <- <-. injection H2 as <-. auto.
Qed.

Lemma mapM_len {A B} (f : A -> res B) l : forall o, mapM f l = Ok o -> List.length o = List.length l.
Proof.
  induction l as [|x l IH]; simpl; intros o H; [injection H as <-; auto|].
  apply bind_ok in H. destruct H as (y & _ & H). apply bind_ok in H. destruct H as (ys & E & H). injection H as <-. simpl. rewrite (IH ys); auto.
Qed.

Lemma predict_length pg b d v p : predict pg b d v = Ok p -> List.length p = List.length (d_rows d).
Proof.
  unfold predict. intros H. apply bind_ok in H. destruct H as ([|] & _ & H).
  - unfold predict_complete in H. apply bind_ok in H. destruct H as (f & _ & H). exact (mapM_len _ _ _ H).
  - unfold predict_incomplete in H. apply bind_ok in H. destruct H as (es & H & E). injection E as <-. rewrite map_length.
    unfold evidence in H. destruct (b_states b); [|discriminate]. destruct (negb _); [discriminate|]. destruct (negb _); [discriminate|].
    destruct (negb _); [discriminate|]. exact (mapM_len _ _ _ H).
Qed.

Theorem predict_perm pg b cols xs ys v p : Permutation xs ys -> predict pg b (mkDf cols xs) v = Ok p ->
  exists q, predict pg b (mkDf cols ys) v = Ok q /\ Permutation (combine xs p) (combine ys q).
Proof.
  intros H. revert p. induction H as [|x l l' H IH|x y l|l l' l'' H1 IH1 H2 IH2]; intros p E.
  - eauto.
  - change (x :: l) with ([x] ++ l) in E. rewrite predict_rows in E. apply bind_ok in E. destruct E as (p1 & E1 & E). apply bind_ok in E.
    destruct E as (p2 & E2 & E). injection E as <-. destruct (IH _ E2) as (q & Eq & P). exists (p1 ++ q). split.
    + change (x :: l') with ([x] ++ l'). rewrite predict_rows, E1. simpl. rewrite Eq. auto.
    + apply predict_length in E1. destruct p1 as [|a [|? ?]]; try discriminate. simpl. auto.
  - change (y :: x :: l) with ([y] ++ [x] ++ l) in E. rewrite !predict_rows in E. apply bind_ok in E. destruct E as (p1 & E1 & E). apply bind_ok in E.
    destruct E as (p2 & E2 & E). injection E as <-. apply bind_ok in E2. destruct E2 as (p3 & E2 & E). apply bind_ok in E. destruct E as (p4 & E4 & E). injection E as <-.
    exists (p3 ++ p1 ++ p4). split.
    + change (x :: y :: l) with ([x] ++ [y] ++ l). rewrite !predict_rows, E1, E2, E4. auto.
    + apply predict_length in E1. apply predict_length in E2. destruct p1 as [|a [|? ?]]; try discriminate. destruct p3 as [|c [|? ?]]; try discriminate. simpl. apply perm_swap.
  - destruct (IH1 _ E) as (q & Eq & P). destruct (IH2 _ Eq) as (r & Er & P'). exists r. split; auto. eapply perm_trans; eauto.
Qed.
