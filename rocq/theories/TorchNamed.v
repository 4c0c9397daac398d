(** * TorchNamed: the torch version on a data frame, where variables and bans go by their labels. *)
From Coq Require Import List Bool Arith ZArith Lia String QArith Qcanon Qreals Reals Lra Relations Permutation.
From Coquelicot Require Import Coquelicot.
From Verif Require Import Base Names Digraph SmModel SmProofs SmBuild QcX NotearsModel NotearsProofs NotearsThms AcycModel AcycProofs AcycThms AcycLink
  TorchModel TorchSpec TorchProofs TorchThms TorchGraph TorchResult TorchPandas TorchFrame TorchAcyc TorchExact LossModel OrdProofs FitBound TorchBest.
Import ListNotations.
Local Open Scope list_scope.
Local Open Scope nat_scope.

(** ** Specification *)

(** As [open_column], with bans between the variables named [cols]. *)
Definition open_named_column (L : list (nat * list nat)) (cols : list label) (t : tabu label) (x y : nat) : Prop :=
  exists a b, a < List.length cols /\ b < List.length cols /\ In x (columns_of L a) /\ In y (columns_of L b) /\ a <> b /\ ~ banned t (col_name cols a) (col_name cols b).

(** ** Proofs *)
Lemma idx_of_within cols c z : NoDup cols -> idx_of (col_idx cols) c = Ok z -> (0 <= z < Z.of_nat (List.length cols))%Z.
Proof.
  intros ND. unfold idx_of. rewrite col_idx_combine by auto. destruct (dget _ _ _) as [k|] eqn:E; [|discriminate]. intros [= <-].
  apply (dget_In _ label_eqb_spec) in E. apply combine_In_nth in E. destruct E as (k' & -> & E).
  assert (k' < List.length cols) by (apply nth_error_Some; congruence). cbn. lia.
Qed.

Lemma mapM_from {A B} (f : A -> res B) l l' y : mapM f l = Ok l' -> In y l' -> exists x, In x l /\ f x = Ok y.
Proof.
  intros M Hy. apply mapM_ok in M. induction M as [|a b l l' Hab M IH]; [destruct Hy|].
  destruct Hy as [->|Hy]; [exists a; split; auto; left; auto|]. destruct (IH Hy) as (x & Hx & Ex). exists x. split; auto. right; auto.
Qed.

Lemma tabu_index_within cols t tz : NoDup cols -> tabu_index (col_idx cols) t = Ok tz -> tabu_within (List.length cols) tz.
Proof.
  intros ND E. unfold tabu_index in E. apply bind_ok in E. destruct E as (e & E1 & E). apply bind_ok in E. destruct E as (q & E2 & E).
  apply bind_ok in E. destruct E as (c & E3 & E). injection E as <-. split; cbn [t_edges t_parents t_children].
  - intros l u v -> I. destruct (t_edges t) as [l0|]; cbn [opt_mapM] in E1; [|discriminate]. apply bind_ok in E1. destruct E1 as (l' & M & [= ->]).
    destruct (mapM_from _ _ _ _ M I) as ([u' v'] & _ & Eu). cbn [fst snd] in Eu. apply bind_ok in Eu. destruct Eu as (a & Ea & Eu). apply bind_ok in Eu. destruct Eu as (b & Eb & [= -> ->]).
    split; eapply idx_of_within; eauto.
  - intros l u [->| ->] I.
    + destruct (t_parents t) as [l0|]; cbn [opt_mapM] in E2; [|discriminate]. apply bind_ok in E2. destruct E2 as (l' & M & [= ->]).
      destruct (mapM_from _ _ _ _ M I) as (u' & _ & Eu). eapply idx_of_within; eauto.
    + destruct (t_children t) as [l0|]; cbn [opt_mapM] in E3; [|discriminate]. apply bind_ok in E3. destruct E3 as (l' & M & [= ->]).
      destruct (mapM_from _ _ _ _ M I) as (u' & _ & Eu). eapply idx_of_within; eauto.
Qed.

Lemma open_column_named L cols t tz : NoDup cols -> tabu_index (col_idx cols) t = Ok tz -> forall x y, open_column L (List.length cols) tz x y <-> open_named_column L cols t x y.
Proof.
  intros ND E x y. split; intros (a & b & Ha & Hb & Hx & Hy & N & B); exists a, b; repeat split; auto; intros C; apply B.
  - eapply tabu_index_ban; eauto.
  - eapply tabu_index_ban_inv; eauto.
Qed.

Lemma torch_question_ext d m size may may' bs : (forall x y, may x y <-> may' x y) -> torch_question d m size may bs -> torch_question d m size may' bs.
Proof.
  intros H (L & Q & R). split; [exact L|]. split; [|exact R]. intros i j u Hi Hj Hu. destruct (Q i j u Hi Hj Hu) as [Q1 Q2].
  split; intros K; [apply Q1, H, K|apply Q2; intros C; apply K, H, C].
Qed.

Lemma keeps_ext d m may may' v : (forall x y, may x y <-> may' x y) -> keeps_bans d m may v -> keeps_bans d m may' v.
Proof. intros H K i j u Hi Hj Hu N. apply (K i j u); auto. intros C. apply N, H, C. Qed.

Lemma near_torch_ext d m size may may' F eps opt : (forall x y, may x y <-> may' x y) -> near_torch d m size may F eps opt -> near_torch d m size may' F eps opt.
Proof.
  intros H N bs Q r q s k Hr Hq. assert (H' : forall x y, may' x y <-> may x y) by (intros; symmetry; apply H).
  destruct (N bs (torch_question_ext _ _ _ _ _ _ H' Q) r q s k Hr Hq) as (L & K & B). split; [exact L|]. split; [exact (keeps_ext _ _ _ _ _ H K)|].
  intros u b Lu Ku Eb. apply (B u b); auto. exact (keeps_ext _ _ _ _ _ H' Ku).
Qed.

(** A cycle of the labelled graph is a cycle of the numbered one. *)
Lemma renamed_acyclic L cols d name l0 l : renamed L cols d name l0 l -> (forall x y, x < d -> y < d -> name x = name y -> x = y) ->
  acyclic (edges (l_graph l0)) -> acyclic (edges (l_graph l)).
Proof.
  intros Rn I A. assert (Q : forall u v, path (edges (l_graph l)) u v -> exists x y, x < d /\ y < d /\ u = name x /\ v = name y /\ path (edges (l_graph l0)) (node x) (node y)).
  { intros u v P. induction P as [u v H|u v z H P IH]; apply (rn_edges _ _ _ _ _ _ Rn) in H; destruct H as (x & y & Hx & Hy & -> & -> & H).
    - exists x, y. repeat split; auto. apply path_one. exact H.
    - destruct IH as (y' & z' & Hy' & Hz & Ey & -> & P'). apply I in Ey; auto. subst y'. exists x, z'. repeat split; auto. eapply path_step; eauto. }
  intros u P. destruct (Q u u P) as (x & y & Hx & Hy & -> & E & P'). apply I in E; auto. subst y. exact (A _ P').
Qed.

(** What the frame learns is what the numbered data learn. *)
Lemma pandas_numbers fuel opt eh act grad rnd order X schema p t l sz tz ks :
  NoDup (map fst (f_cols X)) -> List.Forall (fun r => List.length r = List.length (f_cols X)) (f_rows X) ->
  (forall s, schema = Some s -> NoDup (map fst s)) -> (forall ds, Permutation (order ds) ds) ->
  torch_pandas fuel opt eh act grad rnd order X schema p t = Ok l ->
  let cols := map fst (f_cols X) in let M := mkMat (List.length cols) (f_rows X) in
  schema_index cols schema = Ok sz -> tabu_index (col_idx cols) t = Ok tz -> schema_kinds (List.length cols) sz = Ok ks ->
  (forall s, sz = Some s -> NoDup (map fst s)) /\ rectangular M /\ tabu_within (List.length cols) tz /\
  exists l0 name, torch_numpy fuel opt eh act grad rnd M sz p tz = Ok l0 /\ renamed (expanded M ks) cols (nth 0 (l_dims l0) 0) name l0 l /\
    l_params l0 = l_params l /\ l_dims l0 = l_dims l /\ l_dtypes l0 = l_dtypes l /\ l_use_bias l0 = l_use_bias l /\ l_warned l0 = l_warned l.
Proof.
  intros Nc R Ns Po E cols M Es Et Ek.
  destruct (torch_pandas_renamed _ _ _ _ _ _ _ _ _ _ _ _ Nc R Ns Po E) as (sz' & tz' & ks' & l0 & name & Es' & Et' & Ek' & Nz & Rm & E0 & Rn). fold cols M in Es', Et', Ek', Rm, E0, Rn.
  rewrite Es in Es'. injection Es' as <-. rewrite Et in Et'. injection Et' as <-. rewrite Ek in Ek'. injection Ek' as <-.
  split; [exact Nz|]. split; [exact Rm|]. split; [exact (tabu_index_within _ _ _ Nc Et)|]. exists l0, name. split; [exact E0|]. split; [exact Rn|].
  destruct (rn_params _ _ _ _ _ _ Rn) as (P1 & P2 & P3 & P4 & P5). auto.
Qed.

(** The bounds for a call on a data frame. *)
Definition torch_asks_frame (X : frame) (schema : option (list (label * string))) (p : tparams) (t : tabu label) (l : learned) (bs : list bound) : Prop :=
  forall sz ks, let cols := map fst (f_cols X) in schema_index cols schema = Ok sz -> schema_kinds (List.length cols) sz = Ok ks ->
    let d := nth 0 (l_dims l) 0 in
    torch_question d (nth 1 (l_dims l) 0) (n_params d (tp_bias p) (l_dims l)) (open_named_column (expanded (mkMat (List.length cols) (f_rows X)) ks) cols t) bs.

Lemma asks_named X schema p t l l0 bs sz tz ks : let cols := map fst (f_cols X) in let M := mkMat (List.length cols) (f_rows X) in
  NoDup cols -> schema_index cols schema = Ok sz -> tabu_index (col_idx cols) t = Ok tz -> schema_kinds (List.length cols) sz = Ok ks ->
  rectangular M -> (forall s, sz = Some s -> NoDup (map fst s)) -> l_dims l0 = l_dims l ->
  torch_asks M sz p tz l0 bs -> torch_asks_frame X schema p t l bs.
Proof.
  intros cols M Nc Es Et Ek Rm Nz Ed As sz' ks' cols' Es' Ek'. fold cols in cols'. subst cols'. rewrite Es in Es'. injection Es' as <-. rewrite Ek in Ek'. injection Ek' as <-.
  specialize (As ks Rm Nz Ek (tabu_index_within _ _ _ Nc Et)). cbv zeta in As. rewrite Ed in As. cbv zeta.
  eapply torch_question_ext; [|exact As]. intros x y. cbn [m_cols M]. apply open_column_named; auto.
Qed.
