(** * PropsTorch: properties C36 to C39 (and C30, C31, C33 for the torch version), structure learning with torch. *)
From Coq Require Import List Bool Arith ZArith Lia String QArith Qcanon Permutation Reals Lra Relations.
From Verif Require Import Base Names Digraph SmModel QcX NotearsModel NotearsProofs NotearsThms AcycModel AcycLink
  TorchModel TorchSpec TorchProofs TorchThms TorchGraph TorchResult TorchPandas TorchFrame TorchAcyc TorchTotal TorchFinal PropsNotears.
Import ListNotations.
Local Open Scope string_scope.
Local Open Scope list_scope.
Local Open Scope nat_scope.

(** ** The columns of the expanded data *)

(** Every expanded column belongs to exactly one variable. *)
Theorem C36_columns : forall fuel opt eh act grad rnd X schema p t l ks, rectangular X -> (forall s, schema = Some s -> NoDup (map fst s)) ->
  schema_kinds (m_cols X) schema = Ok ks -> torch_numpy fuel opt eh act grad rnd X schema p t = Ok l ->
  (forall x, In (LInt (Z.of_nat x)) (nodes (l_graph l)) <-> exists a, a < m_cols X /\ In x (columns_of (expanded X ks) a)) /\
  (forall a b x, a < m_cols X -> b < m_cols X -> In x (columns_of (expanded X ks) a) -> In x (columns_of (expanded X ks) b) -> a = b) /\
  (forall a, a < m_cols X -> List.length (columns_of (expanded X ks) a) =
     if existsb (fun ik => (fst ik =? a) && match snd ik with Cat => true | _ => false end) ks then List.length (nodup Qc_eq_dec (values X a)) else 1).
Proof.
  intros fuel opt eh act grad rnd X schema p t l ks R Ns Ek E. destruct (torch_numpy_inv _ _ _ _ _ _ _ _ _ _ _ E) as (ks' & dts & X' & t' & Ek' & Ep & O).
  assert (Sz : (m_size X =? 0) = false) by (unfold torch_numpy in E; destruct (m_size X =? 0); [discriminate|auto]).
  rewrite Ek in Ek'. injection Ek' as <-. pose proof (prepare_facts _ _ _ _ _ _ _ R Ns Ek Ep) as F. split; [|split].
  - intros x. rewrite (oc_nodes _ _ _ _ _ _ _ _ _ _ _ _ _ O), <- (fa_cover _ _ _ _ _ _ F), in_map_iff. split.
    + intros (y & H & Hy). apply node_inj in H. apply in_seq in Hy. lia.
    + intros H. exists x. split; auto. apply in_seq. lia.
  - apply (fa_uniq _ _ _ _ _ _ F).
  - intros a Ha. destruct (schema_kinds_keys _ _ _ Ns Ek) as [Nk Kk].
    assert (Pos : forall i, 0 < List.length (nodup Qc_eq_dec (values X i))).
    { intros i. assert (V : values X i <> []). { unfold values. apply Nat.eqb_neq in Sz. unfold m_size in Sz. destruct (m_rows X); cbn in *; [lia|discriminate]. }
      destruct (values X i) as [|v r]; [congruence|]. assert (In v (nodup Qc_eq_dec (v :: r))) by (apply nodup_In; left; auto). destruct (nodup Qc_eq_dec (v :: r)); [destruct H|cbn; lia]. }
    apply Kk in Ha. clear - Nk Ha Pos. unfold expanded, columns_of. generalize (m_cols X). induction ks as [|[i k] ks IH]; intros w; [destruct Ha|].
    cbn [map layout dget fst snd existsb]. cbn in Nk. apply NoDup_cons_iff in Nk. destruct Nk as [Ni Nk]. rewrite (Nat.eqb_sym a i).
    destruct (Nat.eqb_spec i a) as [->|N].
    + assert (Z : existsb (fun ik : nat * kind => (fst ik =? a) && match snd ik with Cat => true | _ => false end) ks = false).
      { apply not_true_is_false. intros H. apply existsb_exists in H. destruct H as ([j kj] & I & H). apply andb_true_iff in H. destruct H as [H _].
        apply Nat.eqb_eq in H. cbn in H. subst j. apply Ni. apply in_map_iff. exists (a, kj). auto. }
      rewrite Z, orb_false_r. cbn [List.length andb]. rewrite seq_length. destruct k; cbn [n_columns]; auto. pose proof (Pos a). lia.
    + cbn [andb orb]. cbn [map In fst] in Ha. destruct Ha as [<-|Ha]; [congruence|]. apply IH; auto.
Qed.
Print Assumptions C36_columns.

(** ** C36: banned edges are never learned *)
Theorem C36_tabu_numpy : forall fuel opt eh act grad rnd X schema p t l ks, respects_bounds opt -> gradient_local grad \/ linear p ->
  rectangular X -> (forall s, schema = Some s -> NoDup (map fst s)) -> schema_kinds (m_cols X) schema = Ok ks ->
  torch_numpy fuel opt eh act grad rnd X schema p t = Ok l ->
  forall u v, In (u, v) (edges (l_graph l)) -> exists a b x y, a < m_cols X /\ b < m_cols X /\
    u = LInt (Z.of_nat x) /\ v = LInt (Z.of_nat y) /\ In x (columns_of (expanded X ks) a) /\ In y (columns_of (expanded X ks) b) /\
    a <> b /\ ~ banned t (Z.of_nat a) (Z.of_nat b).
Proof. exact torch_no_ban. Qed.
Print Assumptions C36_tabu_numpy.

Theorem C36_tabu_pandas : forall fuel opt eh act grad rnd order X schema p t l, respects_bounds opt -> gradient_local grad \/ linear p ->
  NoDup (map fst (f_cols X)) -> Forall (fun r => List.length r = List.length (f_cols X)) (f_rows X) ->
  (forall s, schema = Some s -> NoDup (map fst s)) -> (forall ds, Permutation (order ds) ds) ->
  torch_pandas fuel opt eh act grad rnd order X schema p t = Ok l ->
  (forall u v, In (u, v) (edges (l_graph l)) -> exists c c' k k', In c (map fst (f_cols X)) /\ In c' (map fst (f_cols X)) /\
     u = category_name c k /\ v = category_name c' k' /\ c <> c' /\ ~ banned t c c') /\
  (forall u v, In (u, v) (edges (l_collapsed l)) -> In u (map fst (f_cols X)) /\ In v (map fst (f_cols X)) /\ u <> v /\ ~ banned t u v).
Proof. exact torch_pandas_no_ban. Qed.
Print Assumptions C36_tabu_pandas.

Theorem C36_tabu_collapsed : forall fuel opt eh act grad rnd X schema p t l, respects_bounds opt -> gradient_local grad \/ linear p ->
  rectangular X -> (forall s, schema = Some s -> NoDup (map fst s)) ->
  torch_numpy fuel opt eh act grad rnd X schema p t = Ok l ->
  forall u v, In (u, v) (edges (l_collapsed l)) -> exists a b, a < m_cols X /\ b < m_cols X /\
    u = LInt (Z.of_nat a) /\ v = LInt (Z.of_nat b) /\ a <> b /\ ~ banned t (Z.of_nat a) (Z.of_nat b).
Proof. exact torch_collapsed_no_ban. Qed.
Print Assumptions C36_tabu_collapsed.

(** A gradient by differences; it meets [gradient_local]. *)
Definition bump (r i : nat) (Y : list (list Qc)) : list (list Qc) := set_nth r (set_nth i (nth i (nth r Y []) 0 + 1)%Qc (nth r Y [])) Y.
Definition ex_grad : autograd := fun f Y => map (fun r => map (fun i => (f (bump r i Y) - f Y)%Qc) (seq 0 (List.length (nth r Y [])))) (seq 0 (List.length Y)).

Lemma ex_grad_local : gradient_local ex_grad.
Proof.
  intros f Y i H r Hr. unfold ex_grad in Hr. apply in_map_iff in Hr. destruct Hr as (k & <- & Hk). apply in_seq in Hk.
  destruct (Nat.lt_ge_cases i (List.length (nth k Y []))) as [Hi|Hi]; [|apply nth_overflow; rewrite map_length, seq_length; auto].
  rewrite nth_map_seq by auto. cbn [plus]. rewrite H; [ring|]. unfold same_but, bump. revert Hk. clear H. intros Hk.
  assert (G : forall l k, k < List.length l -> i < List.length (nth k l []) ->
    Forall2 (fun r s => forall j, j <> i -> nth j r 0%Qc = nth j s 0%Qc) l (set_nth k (set_nth i (nth i (nth k l []) 0 + 1)%Qc (nth k l [])) l)).
  { induction l as [|a l IH]; intros q Hq Hi'; [cbn in Hq; lia|]. destruct q as [|q].
    - unfold set_nth at 1. cbn [firstn skipn app nth]. constructor; [intros j Nj; symmetry; apply set_nth_other; auto|]. clear. induction l; constructor; auto.
    - unfold set_nth at 1. cbn [firstn skipn app nth] in *. constructor; auto. apply IH; [cbn in Hq; lia|auto]. }
  apply G; [lia|auto].
Qed.

Definition ex_act : activation := fun _ l => map (fun x => x * x)%Qc l.
Definition ex_teh : tpenalty := fun _ _ => Fin 0%Qc.
Definition ex_tframe : frame := mkFrame [(LStr "color", true); (LStr "size", true); (LStr "age", true)]
  [[Fin 0; Fin 1; Fin (Q2Qc 3)]; [Fin 1; Fin 0; Fin (Q2Qc 5)]; [Fin (Q2Qc 2); Fin 1; Fin (Q2Qc 4)]]%Qc.
Definition ex_schema : list (label * string) := [(LStr "color", "cat"); (LStr "size", "bin"); (LStr "age", "cont")].
Definition ex_ttabu : tabu label := mkTabu (Some [(LStr "color", LStr "age")]) None (Some [LStr "size"]).
Definition ex_hidden : tparams := mkTp (Some [1]) true None 5.
Definition ex_linear : tparams := mkTp None false (Some (Q2Qc (1 # 10))) 5.

Lemma ex_opt_bounds : respects_bounds ex_opt.
Proof. apply C29_hypotheses_met. Qed.

Example C36_hypotheses_met : respects_bounds ex_opt /\ gradient_local ex_grad /\
  NoDup (map fst (f_cols ex_tframe)) /\ Forall (fun r => List.length r = List.length (f_cols ex_tframe)) (f_rows ex_tframe) /\ NoDup (map fst ex_schema) /\
  (exists l, torch_pandas 17 ex_opt ex_teh ex_act ex_grad [Q2Qc (1 # 3)] (fun d => d) ex_tframe (Some ex_schema) ex_hidden ex_ttabu = Ok l /\
     nodes (l_graph l) = [LStr "size"; LStr "age"; LStr "color"; LStr "color1"; LStr "color2"] /\
     edges (l_graph l) = [(LStr "size", LStr "color"); (LStr "size", LStr "age"); (LStr "size", LStr "color1"); (LStr "size", LStr "color2");
                          (LStr "age", LStr "color"); (LStr "age", LStr "color1"); (LStr "age", LStr "color2")] /\
     edges (l_collapsed l) = [(LStr "size", LStr "color"); (LStr "size", LStr "age"); (LStr "age", LStr "color")]) /\
  (exists l, torch_pandas 17 ex_opt ex_teh ex_act ex_grad [] (fun d => d) ex_tframe (Some ex_schema) ex_linear ex_ttabu = Ok l /\
     edges (l_collapsed l) = [(LStr "size", LStr "color"); (LStr "size", LStr "age"); (LStr "age", LStr "color")]).
Proof.
  split; [apply ex_opt_bounds|]. split; [apply ex_grad_local|]. split; [repeat constructor; cbn; intuition congruence|]. split; [repeat constructor|].
  split; [repeat constructor; cbn; intuition congruence|]. split.
  - eexists. split; [vm_compute; reflexivity|]. split; [|split]; vm_compute; reflexivity.
  - eexists. split; [vm_compute; reflexivity|]. vm_compute. reflexivity.
Qed.

(** ** C37: a predicted column depends only on its allowed inputs *)
Theorem C37_forward : forall act ub dims v x y j,
  let d := nth 0 dims 0 in let m1 := nth 1 dims 0 in
  (forall i, i < d -> (exists m, m < m1 /\ nth ((j * m1 + m) * d + i) v 0%Qc <> 0%Qc) -> nth i x 0%Qc = nth i y 0%Qc) ->
  nth j (forward act ub dims v x) 0%Qc = nth j (forward act ub dims v y) 0%Qc.
Proof. exact forward_local. Qed.
Print Assumptions C37_forward.

(** Values of a banned variable never influence the output for the other variable, nor does a variable
    influence the output for itself. *)
Theorem C37_banned : forall fuel opt eh act grad rnd X schema p t l ks, respects_bounds opt ->
  rectangular X -> (forall s, schema = Some s -> NoDup (map fst s)) -> schema_kinds (m_cols X) schema = Ok ks ->
  torch_numpy fuel opt eh act grad rnd X schema p t = Ok l ->
  forall a b, a < m_cols X -> b < m_cols X -> a = b \/ banned t (Z.of_nat a) (Z.of_nat b) ->
  forall r s, (forall i, ~ In i (columns_of (expanded X ks) a) -> nth i r 0%Qc = nth i s 0%Qc) ->
  forall j, In j (columns_of (expanded X ks) b) ->
    nth j (forward act (l_use_bias l) (l_dims l) (l_params l) r) 0%Qc = nth j (forward act (l_use_bias l) (l_dims l) (l_params l) s) 0%Qc.
Proof. exact torch_banned_no_influence. Qed.
Print Assumptions C37_banned.

(** A network with two hidden units: output 0 depends on input 1 and not on input 0, output 1 is the reverse. *)
Definition ex_v : list Qc := [0; 1; 0; Q2Qc (2 # 1); 1; 0; 0; 0; 1; 1; 1; 1]%Qc.
Example C37_cases :
  forward ex_act false [2; 2; 1] ex_v [1; 1]%Qc = [Q2Qc 5; 1]%Qc /\ forward ex_act false [2; 2; 1] ex_v [0; 1]%Qc = [Q2Qc 5; 0]%Qc /\
  forward ex_act false [2; 2; 1] ex_v [1; 0]%Qc = [0; 1]%Qc.
Proof. repeat split; vm_compute; reflexivity. Qed.

(** ** C38: the collapsed graph *)
Theorem C38_collapsed_partial : forall fuel opt eh act grad rnd X schema p t l ks, rectangular X -> (forall s, schema = Some s -> NoDup (map fst s)) ->
  schema_kinds (m_cols X) schema = Ok ks -> torch_numpy fuel opt eh act grad rnd X schema p t = Ok l ->
  exists w, (forall x y, (0 <= w x y)%Qc) /\ (exists d m, effects_graph (l_graph l) d node w m (survives (tp_threshold p))) /\
    weights_graph (l_collapsed l) (m_cols X) node "unknown" (fun a b => block_sum w (columns_of (expanded X ks) a) (columns_of (expanded X ks) b)) (fun x => x <> 0%Qc) /\
    (forall a b, a < m_cols X -> b < m_cols X -> (In (LInt (Z.of_nat a), LInt (Z.of_nat b)) (edges (l_collapsed l)) <->
       exists x y, In x (columns_of (expanded X ks) a) /\ In y (columns_of (expanded X ks) b) /\ w x y <> 0%Qc)).
Proof. exact torch_collapsed. Qed.
Print Assumptions C38_collapsed_partial.

Theorem C38_no_threshold_partial : forall fuel opt eh act grad rnd X schema p t l ks, rectangular X -> (forall s, schema = Some s -> NoDup (map fst s)) ->
  schema_kinds (m_cols X) schema = Ok ks -> torch_numpy fuel opt eh act grad rnd X schema p t = Ok l ->
  (tp_threshold p = None \/ tp_threshold p = Some 0%Qc) ->
  forall a b, a < m_cols X -> b < m_cols X -> (In (LInt (Z.of_nat a), LInt (Z.of_nat b)) (edges (l_collapsed l)) <->
    exists x y, In x (columns_of (expanded X ks) a) /\ In y (columns_of (expanded X ks) b) /\ In (LInt (Z.of_nat x), LInt (Z.of_nat y)) (edges (l_graph l))).
Proof. exact torch_collapsed_no_threshold. Qed.
Print Assumptions C38_no_threshold_partial.

Theorem C38_pandas_partial : forall fuel opt eh act grad rnd order X schema p t l,
  NoDup (map fst (f_cols X)) -> Forall (fun r => List.length r = List.length (f_cols X)) (f_rows X) ->
  (forall s, schema = Some s -> NoDup (map fst s)) -> (forall ds, Permutation (order ds) ds) -> no_suffixes (map fst (f_cols X)) ->
  torch_pandas fuel opt eh act grad rnd order X schema p t = Ok l ->
  (tp_threshold p = None \/ tp_threshold p = Some 0%Qc) ->
  forall u v, In (u, v) (edges (l_collapsed l)) <->
    In u (map fst (f_cols X)) /\ In v (map fst (f_cols X)) /\ exists k k', In (category_name u k, category_name v k') (edges (l_graph l)).
Proof. exact torch_pandas_collapsed. Qed.
Print Assumptions C38_pandas_partial.

(** With a threshold the collapsed graph keeps edges that the returned graph does not have. *)
Theorem C38_refuted : exists opt X p l, respects_bounds opt /\ rectangular X /\ m_cols X = 2 /\
  torch_numpy 17 opt ex_teh ex_act ex_grad [] X None p (mkTabu None None None) = Ok l /\
  edges (l_graph l) = [] /\ edges (l_collapsed l) = [(LInt 0, LInt 1); (LInt 1, LInt 0)].
Proof.
  exists ex_opt, (mkMat 2 [[Fin 1; Fin 0]; [Fin 0; Fin 1]]%Qc), (mkTp None false (Some (Q2Qc (4 # 5))) 5). eexists.
  split; [apply ex_opt_bounds|]. split; [repeat constructor|]. split; [reflexivity|]. split; [vm_compute; reflexivity|]. split; vm_compute; reflexivity.
Qed.
Print Assumptions C38_refuted.

Example C38_hypotheses_met : exists l, schema_kinds 2 (Some [(0, "cat"); (1, "cont")]) = Ok [(0, Cat); (1, Cont)] /\
  torch_numpy 17 ex_opt ex_teh ex_act ex_grad [] (mkMat 2 [[Fin 1; Fin 0]; [Fin 0; Fin 1]]%Qc) (Some [(0, "cat"); (1, "cont")]) (mkTp None false None 5) (mkTabu None None None) = Ok l /\
  expanded (mkMat 2 [[Fin 1; Fin 0]; [Fin 0; Fin 1]]%Qc) [(0, Cat); (1, Cont)] = [(0, [0; 2]); (1, [1])] /\
  edges (l_graph l) = [(LInt 0, LInt 1); (LInt 1, LInt 0); (LInt 1, LInt 2); (LInt 2, LInt 1)] /\
  edges (l_collapsed l) = [(LInt 0, LInt 1); (LInt 1, LInt 0)] /\
  map (fun e => match weight_of (snd e) with ANum q => this q | _ => 0%Q end) (edges_data (l_collapsed l)) = [1%Q; 1%Q].
Proof. eexists. split; [reflexivity|]. split; [vm_compute; reflexivity|]. repeat split; vm_compute; reflexivity. Qed.

(** ** C39: names of expanded columns *)
Theorem C39_names_partial : forall fuel opt eh act grad rnd order X schema p t l,
  NoDup (map fst (f_cols X)) -> Forall (fun r => List.length r = List.length (f_cols X)) (f_rows X) ->
  (forall s, schema = Some s -> NoDup (map fst s)) -> (forall ds, Permutation (order ds) ds) -> no_suffixes (map fst (f_cols X)) ->
  torch_pandas fuel opt eh act grad rnd order X schema p t = Ok l ->
  let cols := map fst (f_cols X) in
  let M := mkMat (List.length cols) (f_rows X) in
  exists sz tz ks l0 name, schema_index cols schema = Ok sz /\ tabu_index (col_idx cols) t = Ok tz /\ schema_kinds (List.length cols) sz = Ok ks /\
    torch_numpy fuel opt eh act grad rnd M sz p tz = Ok l0 /\
    let d := nth 0 (l_dims l0) 0 in
    (forall x, x < d -> has_name cols (expanded M ks) x (name x)) /\
    (forall x y, x < d -> y < d -> name x = name y -> x = y) /\
    Permutation (nodes (l_graph l)) (map name (seq 0 d)) /\
    (forall w m keep, effects_graph (l_graph l0) d (fun i => LInt (Z.of_nat i)) w m keep -> effects_graph (l_graph l) d name w m keep) /\
    (forall x b, In (LInt (Z.of_nat x), b) (l_bias l0) -> dget label_eqb (l_bias l) (name x) = Some b).
Proof. exact torch_pandas_names. Qed.
Print Assumptions C39_names_partial.

(** Columns "a" (three categories) and "a1": four expanded columns, three nodes. *)
Theorem C39_refuted : exists X schema l, NoDup (map fst (f_cols X)) /\ NoDup (map fst schema) /\
  torch_pandas 17 ex_opt ex_teh ex_act ex_grad [] (fun d => d) X (Some schema) (mkTp None false None 5) (mkTabu None None None) = Ok l /\
  nth 0 (l_dims l) 0 = 4 /\ nodes (l_graph l) = [LStr "a1"; LStr "a"; LStr "a2"] /\ In (LStr "a", LStr "a1") (edges (l_graph l)).
Proof.
  exists (mkFrame [(LStr "a", true); (LStr "a1", true)] [[Fin 0; Fin 1]; [Fin 1; Fin 0]; [Fin (Q2Qc 2); Fin 1]]%Qc), [(LStr "a", "cat"); (LStr "a1", "cont")]. eexists.
  split; [repeat constructor; cbn; intuition congruence|]. split; [repeat constructor; cbn; intuition congruence|]. split; [vm_compute; reflexivity|].
  split; [vm_compute; reflexivity|]. split; [vm_compute; reflexivity|]. vm_compute. tauto.
Qed.
Print Assumptions C39_refuted.

Example C39_hypotheses_met : no_suffixes (map fst (f_cols ex_tframe)).
Proof.
  intros c c' ds H H' N D E. cbn in H, H'.
  destruct H as [<-|[<-|[<-|[]]]]; destruct H' as [<-|[<-|[<-|[]]]]; cbn in E; try congruence; discriminate.
Qed.

(** ** C30 for the torch version *)
Theorem C30_torch : forall fuel opt eh act grad rnd X schema p t l ks, rectangular X -> (forall s, schema = Some s -> NoDup (map fst s)) ->
  schema_kinds (m_cols X) schema = Ok ks -> torch_numpy fuel opt eh act grad rnd X schema p t = Ok l ->
  fitted opt rnd p (l_params l) /\
  exists Y, List.length (rows Y) = List.length (m_rows X) /\
    (forall x, x < nth 0 (l_dims l) 0 <-> exists a, a < m_cols X /\ In x (columns_of (expanded X ks) a)) /\
    effects_graph (l_graph l) (nth 0 (l_dims l) 0) (fun i => LInt (Z.of_nat i))
      (adjacency act grad (tp_bias p) (l_dims l) (l_params l) Y false) (adjacency act grad (tp_bias p) (l_dims l) (l_params l) Y true)
      (survives (tp_threshold p)).
Proof. exact torch_graph_numpy. Qed.
Print Assumptions C30_torch.

Theorem C30_torch_linear : forall fuel opt eh act grad rnd X schema p t l, linear p -> rectangular X -> (forall s, schema = Some s -> NoDup (map fst s)) ->
  torch_numpy fuel opt eh act grad rnd X schema p t = Ok l ->
  let d := nth 0 (l_dims l) 0 in
  effects_graph (l_graph l) d (fun i => LInt (Z.of_nat i)) (fun i j => Qcabs (nth (j * d + i) (l_params l) 0%Qc)) (fun i j => nth (j * d + i) (l_params l) 0%Qc)
    (survives (tp_threshold p)).
Proof. exact torch_graph_linear. Qed.
Print Assumptions C30_torch_linear.

(** ** C31 for the torch version *)
Theorem C31_torch_partial : forall n fuel hf (opt : optimiser) bnds cur, (forall r a x k, hf (opt bnds r a x k) <> PInf) -> 17 <= fuel ->
  exists v b calls, torch_fit n fuel hf opt bnds 1%Qc (Fin 0%Qc) PInf cur 0 = Ok (v, b, calls) /\ calls <= n + 16.
Proof.
  intros n fuel hf opt bnds cur H Hf. destruct (fit_bound n fuel hf opt bnds 0 (Fin 0%Qc) PInf cur 0 H) as (v & b & k & E & B); [lia|auto|].
  exists v, b, k. split; [exact E|lia].
Qed.
Print Assumptions C31_torch_partial.

(** If the penalty overflows to infinity the loop does not end. *)
Lemma torch_diverges fuel : forall hf opt bnds flat al cur k, (forall w, hf w = PInf) -> torch_while fuel hf opt bnds flat al PInf 1%Qc PInf cur k = Err OutOfFuel.
Proof.
  induction fuel as [|f IH]; intros hf opt bnds flat al cur k H; cbn [torch_while]; change (qlt 1 torch_rho_max) with true; cbn [is_pinf andb]; rewrite orb_true_r; auto.
  cbv zeta. rewrite H. change (flt (fscale quarter PInf) PInf) with false. cbv iota. apply IH; auto.
Qed.
Theorem C31_torch_refuted : exists opt eh X p t, respects_bounds opt /\ forall fuel, torch_numpy fuel opt eh ex_act ex_grad [] X None p t = Err OutOfFuel.
Proof.
  exists ex_opt, (fun _ _ => PInf), (mkMat 2 [[Fin 1; Fin 0]; [Fin 0; Fin 1]]%Qc), (mkTp None false None 5), (mkTabu None None None).
  split; [apply ex_opt_bounds|]. intros fuel. unfold torch_numpy. cbn -[torch_fit Qcpower]. cbn [torch_fit]. rewrite torch_diverges by auto. reflexivity.
Qed.
Print Assumptions C31_torch_refuted.

(** Seventeen calls with one iteration: the bound is attained. *)
Example C31_torch_attained : exists v b, torch_fit 1 17 (fun w => Fin (nth 0 w 0%Qc)) (fun _ _ _ _ k => [if Nat.eqb k 0 then Q2Qc 4 else Q2Qc 2]%Qc) [] 1%Qc (Fin 0%Qc) PInf [] 0 = Ok (v, b, 1) /\
  torch_fit 2 17 (fun w => Fin (nth 0 w 0%Qc)) (fun _ _ _ _ k => [if Nat.eqb k 0 then Q2Qc 4 else Q2Qc 2]%Qc) [] 1%Qc (Fin 0%Qc) PInf [] 0 = Ok ([Q2Qc 2], false, 17).
Proof. eexists _, _. split; vm_compute; reflexivity. Qed.

(** ** C33 for the torch version *)

(** The penalised matrix has one row per variable and holds sums of squared weights. *)
Theorem C33_torch_matrix : forall fuel opt eh act grad rnd X schema p t l ks, rectangular X -> (forall s, schema = Some s -> NoDup (map fst s)) ->
  schema_kinds (m_cols X) schema = Ok ks -> torch_numpy fuel opt eh act grad rnd X schema p t = Ok l -> linear p ->
  h_size (l_dtypes l) = m_cols X /\
  forall a b, h_matrix (l_dtypes l) (nth 0 (l_dims l) 0) (nth 1 (l_dims l) 0) (l_params l) a b = var_weight (expanded X ks) l a b.
Proof. exact torch_penalty_matrix. Qed.
Print Assumptions C33_torch_matrix.

(** Linear models: if the penalty of the returned parameters is at most [tol], and [tol] is below
    L * (threshold^2 / d)^L for every L up to the number d of variables, there is no cycle, not even one that
    enters a variable by one of its categories and leaves it by another. *)
Theorem C33_torch_linear : forall fuel opt eh act grad rnd X schema p t l ks th tol, rectangular X -> (forall s, schema = Some s -> NoDup (map fst s)) ->
  schema_kinds (m_cols X) schema = Ok ks -> torch_numpy fuel opt eh act grad rnd X schema p t = Ok l -> linear p ->
  tp_threshold p = Some th -> (0 <= th)%Qc -> (poly_penalty (m_cols X) (fun a b => realq (var_weight (expanded X ks) l a b)) <= tol)%R ->
  poly_excludes (m_cols X) (realq th) tol ->
  (forall a, ~ clos_trans nat (fun a b => exists x y, In x (columns_of (expanded X ks) a) /\ In y (columns_of (expanded X ks) b) /\
                                  a < m_cols X /\ b < m_cols X /\ In (LInt (Z.of_nat x), LInt (Z.of_nat y)) (edges (l_graph l))) a a) /\
  acyclic (edges (l_graph l)).
Proof. exact torch_linear_acyclic. Qed.
Print Assumptions C33_torch_linear.

Definition ex_opt33t : optimiser := fun _ _ _ _ _ => [0; 0; Q2Qc (1 # 2); 0]%Qc.
Example C33_torch_met : exists l, torch_numpy 17 ex_opt33t ex_teh ex_act ex_grad [] (mkMat 2 [[Fin 1; Fin 0]; [Fin 0; Fin 1]]%Qc) None ex_linear (mkTabu None None None) = Ok l /\
  edges (l_graph l) = [(LInt 0, LInt 1)] /\ linear ex_linear /\
  (poly_penalty 2 (fun a b => realq (var_weight (expanded (mkMat 2 [[Fin 1; Fin 0]; [Fin 0; Fin 1]]%Qc) [(0%nat, Cont); (1%nat, Cont)]) l a b)) <= / 100000000)%R /\
  poly_excludes 2 (realq (Q2Qc (1 # 10))) (/ 100000000)%R.
Proof.
  eexists. split; [vm_compute; reflexivity|]. split; [vm_compute; reflexivity|]. split; [reflexivity|]. split.
  - unfold poly_penalty. cbn. unfold realq, Q2R. vm_compute var_weight. cbn. lra.
  - intros L HL. unfold realq, Q2R. cbn. assert (L = 1 \/ L = 2) as [-> | ->] by lia; cbn; lra.
Qed.

(** ** Which inputs are accepted *)
Theorem C56_accepts : forall fuel opt eh act grad rnd X schema p t, 17 <= fuel -> rectangular X -> (forall s, schema = Some s -> NoDup (map fst s)) ->
  (forall n M, eh n M <> PInf) ->
  (exists l, torch_numpy fuel opt eh act grad rnd X schema p t = Ok l) <->
  m_rows X <> [] /\ m_cols X <> 0 /\ all_numbers X /\ schema_ok (m_cols X) schema /\ counts_ok X schema /\ widths_ok p /\
  (tp_max_iter p <> 0 -> ordinals_ok X schema).
Proof. exact torch_accepts. Qed.
Print Assumptions C56_accepts.

Example C56_cases : let X := mkMat 2 [[Fin 1; Fin 0]; [Fin (Q2Qc (-1)); Fin 0]]%Qc in
  torch_numpy 17 ex_opt ex_teh ex_act ex_grad [] X (Some [(0, "poiss"); (1, "cont")]) ex_linear (mkTabu None None None) = Err ValueError /\
  torch_numpy 17 ex_opt ex_teh ex_act ex_grad [] X (Some [(1, "ord"); (0, "cont")]) ex_linear (mkTabu None None None) = Err IndexError /\
  exists l, torch_numpy 17 ex_opt ex_teh ex_act ex_grad [] X (Some [(1, "cont"); (0, "ord")]) ex_linear (mkTabu None None None) = Ok l.
Proof. cbv zeta. split; [vm_compute; reflexivity|]. split; [vm_compute; reflexivity|]. eexists. vm_compute. reflexivity. Qed.

(** ** The bias of a node *)
Theorem C57_bias_linear_partial : forall fuel opt eh act grad rnd X schema p t l, linear p -> torch_numpy fuel opt eh act grad rnd X schema p t = Ok l ->
  forall x b, In (LInt (Z.of_nat x), b) (l_bias l) ->
    b = if tp_bias p then Some (nth x (forward act (l_use_bias l) (l_dims l) (l_params l) (repeat 0%Qc (nth 0 (l_dims l) 0))) 0%Qc) else None.
Proof. exact torch_bias_linear. Qed.
Print Assumptions C57_bias_linear_partial.

(** With hidden units the bias stored at node 1 is that of the second unit of node 0: two networks that
    differ only in what they compute for node 0 have different biases at node 1. *)
Definition ex_opt57 (b : Qc) : optimiser := fun _ _ _ _ _ => repeat 0%Qc 8 ++ [0; b; 0; 0]%Qc ++ repeat 1%Qc 4 ++ [0; 0]%Qc.
Theorem C57_bias_hidden_refuted : exists X l l',
  let p := mkTp (Some [2]) true None 5 in
  torch_numpy 17 (ex_opt57 0%Qc) ex_teh ex_act ex_grad [] X None p (mkTabu None None None) = Ok l /\
  torch_numpy 17 (ex_opt57 1%Qc) ex_teh ex_act ex_grad [] X None p (mkTabu None None None) = Ok l' /\
  (forall x, nth 1 (forward ex_act true (l_dims l) (l_params l) x) 0%Qc = nth 1 (forward ex_act true (l_dims l') (l_params l') x) 0%Qc) /\
  dget label_eqb (l_bias l) (LInt 1) <> dget label_eqb (l_bias l') (LInt 1).
Proof.
  exists (mkMat 2 [[Fin 1; Fin 0]; [Fin 0; Fin 1]]%Qc). eexists _, _. cbv zeta. split; [vm_compute; reflexivity|]. split; [vm_compute; reflexivity|].
  split; [|vm_compute; discriminate]. intros x. cbn [l_dims l_params]. unfold forward. cbn [nth]. rewrite !nth_map_seq by lia. reflexivity.
Qed.
Print Assumptions C57_bias_hidden_refuted.
