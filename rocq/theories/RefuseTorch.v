(** * RefuseTorch: the exception that the torch learner raises for unusable arguments. *)
From Coq Require Import List Bool Arith ZArith Lia String QArith Qcanon.
From Verif Require Import Base Names Digraph SmModel SmProofs SmBuild QcX NotearsModel NotearsProofs NotearsThms
  TorchModel TorchSpec TorchProofs TorchThms TorchGraph TorchResult TorchTotal.
From Verif Require NotearsAccepts.
Import ListNotations.
Local Open Scope string_scope.
Local Open Scope list_scope.
Local Open Scope nat_scope.

(** Rows, columns, and only finite numbers. *)
Definition usable (X : mat) : Prop := m_rows X <> [] /\ m_cols X <> 0 /\ all_numbers X.
(** The schema names every column and no other. *)
Definition names_columns (d : nat) (schema : option (list (nat * string))) : Prop :=
  forall s, schema = Some s -> forall i, In i (map fst s) <-> i < d.

Lemma size_ok X : m_size X =? 0 = false <-> m_rows X <> [] /\ m_cols X <> 0.
Proof. rewrite Nat.eqb_neq. unfold m_size. destruct (m_rows X); cbn; destruct (m_cols X); split; try lia; try (intros []; congruence). intros _. split; [discriminate|lia]. Qed.

Lemma mapM_kind {A B} (f : A -> res B) e l : (forall x, f x = Err e \/ exists y, f x = Ok y) -> mapM f l = Err e \/ exists y, mapM f l = Ok y.
Proof.
  intros H. induction l as [|a l IH]; [right; exists []; reflexivity|]. cbn [mapM]. destruct (H a) as [->|(y & ->)]; [left; reflexivity|]. cbn [bind].
  destruct IH as [->|(ys & ->)]; [left|right]; cbn [bind]; eauto.
Qed.

Lemma schema_kinds_err d schema e : schema_kinds d schema = Err e -> (names_columns d schema -> e = KeyError) /\ (~ names_columns d schema -> e = ValueError).
Proof.
  intros E. unfold schema_kinds in E. destruct schema as [s|]; [|discriminate].
  assert (C : forallb (fun i => existsb (Nat.eqb i) (map fst s)) (seq 0 d) && forallb (fun i => i <? d) (map fst s) = true <-> names_columns d (Some s)).
  { rewrite andb_true_iff, !forallb_forall. unfold names_columns. split.
    - intros [C1 C2] s' [= <-] i. split.
      + intros H. apply C2 in H. apply Nat.ltb_lt; auto.
      + intros H. assert (Hs : In i (seq 0 d)) by (apply in_seq; lia). apply C1 in Hs. apply existsb_exists in Hs. destruct Hs as (j & Hj & Ej). apply Nat.eqb_eq in Ej. subst. auto.
    - intros H. split; intros i Hi.
      + apply existsb_exists. exists i. split; [apply (H s eq_refl); apply in_seq in Hi; lia|apply Nat.eqb_refl].
      + apply Nat.ltb_lt, (H s eq_refl). auto. }
  destruct (_ && _).
  - split; [intros _|intros N; exfalso; apply N, C; reflexivity].
    destruct (mapM_kind (fun ia : nat * string => match alias_kind (snd ia) with Some k => Ok (fst ia, k) | None => Err KeyError end) KeyError s) as [K|(y & K)]; try congruence.
    intros [i a]. cbn [snd fst]. destruct (alias_kind a); eauto.
  - injection E as <-. split; [intros N; apply C in N; discriminate|reflexivity].
Qed.

Lemma prepare_err ks : forall X t e, prepare ks X t = Err e -> e = ValueError.
Proof.
  induction ks as [|[i k] ks IH]; intros X t e E; cbn [prepare] in E; [discriminate|].
  destruct (preprocess_fit k i X) as [r|e'] eqn:P; cbn [bind] in E.
  - destruct (prepare ks _ _) as [r'|e'] eqn:Q; cbn [bind] in E; [discriminate|]. injection E as <-. eapply IH; eauto.
  - injection E as <-. destruct k; cbn in P; try discriminate. destruct (existsb _ _); [|discriminate]. congruence.
Qed.

(** In the order of the checks. *)
Theorem torch_refuses fuel opt eh act grad rnd X schema p t : 17 <= fuel -> rectangular X -> (forall s, schema = Some s -> NoDup (map fst s)) ->
  (forall n M, eh n M <> PInf) ->
  let r := torch_numpy fuel opt eh act grad rnd X schema p t in
  (~ usable X -> r = Err ValueError) /\
  (usable X -> ~ names_columns (m_cols X) schema -> r = Err ValueError) /\
  (usable X -> names_columns (m_cols X) schema -> ~ schema_ok (m_cols X) schema -> r = Err KeyError) /\
  (usable X -> schema_ok (m_cols X) schema -> ~ counts_ok X schema -> r = Err ValueError) /\
  (usable X -> schema_ok (m_cols X) schema -> counts_ok X schema -> ~ widths_ok p -> r = Err ZeroDivisionError) /\
  (usable X -> schema_ok (m_cols X) schema -> counts_ok X schema -> widths_ok p -> tp_max_iter p <> 0 -> ~ ordinals_ok X schema -> r = Err IndexError).
Proof.
  intros Hf R Ns Hh r.
  assert (SN : schema_ok (m_cols X) schema -> names_columns (m_cols X) schema) by (intros S s Es; apply (S s Es)).
  assert (Acc := torch_accepts fuel opt eh act grad rnd X schema p t Hf R Ns Hh). fold r in Acc.
  assert (Sz := size_ok X). assert (Fin := all_finite_ok X). unfold usable.
  unfold torch_numpy in r.
  destruct (m_size X =? 0).
  { assert (NU : ~ (m_rows X <> [] /\ m_cols X <> 0 /\ all_numbers X)) by (intros (A & B & _); assert (true = false) by (apply Sz; auto); discriminate).
    split; [reflexivity|]. repeat split; intros; contradiction. }
  assert (Sz' := proj1 Sz eq_refl). destruct (all_finite X); cbn [negb] in r.
  2:{ assert (NU : ~ (m_rows X <> [] /\ m_cols X <> 0 /\ all_numbers X)) by (intros (_ & _ & A); apply Fin in A; discriminate).
      split; [reflexivity|]. repeat split; intros; contradiction. }
  assert (Fin' := proj1 Fin eq_refl).
  split; [intros N; exfalso; apply N; tauto|].
  pose proof (schema_kinds_ok (m_cols X) schema) as SK. destruct (schema_kinds (m_cols X) schema) as [ks|e] eqn:Ek; cbn [bind] in r.
  2:{ assert (NS : ~ schema_ok (m_cols X) schema) by (intros S; apply SK in S; destruct S as (ks & [=])). destruct (schema_kinds_err _ _ _ Ek) as [E1 E2].
      split; [intros _ N; unfold r; rewrite (E2 N); reflexivity|]. split; [intros _ N _; unfold r; rewrite (E1 N); reflexivity|]. repeat split; intros; contradiction. }
  assert (SO : schema_ok (m_cols X) schema) by (apply SK; eauto).
  split; [intros _ N; exfalso; auto|]. split; [intros _ _ N; exfalso; auto|].
  change (mkData (m_cols X) (map (map finite_part) (m_rows X))) with (start_data X) in r.
  destruct (schema_kinds_keys _ _ _ Ns Ek) as [Nk Kk]. pose proof (start_rect X R) as Rs.
  assert (B : forall i, In i (map fst ks) -> i < width (start_data X)) by (intros i Hi; apply Kk; auto).
  destruct (prepare_ok ks (start_data X) t Rs Nk B) as [P1 _].
  assert (C : counts_ok X schema <-> forall i, In (i, Poiss) ks -> forall x, In x (column i (start_data X)) -> (0 <= x)%Qc).
  { unfold counts_ok. split; intros H i Hi x Hx.
    - rewrite start_column in Hx. apply (H i); auto. apply (schema_kinds_In _ _ _ Ek i Poiss) in Hi; [auto|discriminate].
    - apply (H i); [apply (schema_kinds_In _ _ _ Ek i Poiss); [discriminate|auto]|rewrite start_column; auto]. }
  destruct (prepare ks (start_data X) t) as [[[dts X'] t']|e] eqn:Ep; cbn [bind] in r.
  2:{ assert (NC : ~ counts_ok X schema) by (intros H; destruct (proj2 P1 (proj1 C H)) as (y & [=])).
      split; [intros _ _ _; unfold r; rewrite (prepare_err _ _ _ _ Ep); reflexivity|]. repeat split; intros; contradiction. }
  assert (CO : counts_ok X schema) by (apply (proj2 C), (proj1 P1); eauto). split; [intros _ _ N; contradiction|].
  pose proof (layers_ok (width X') p) as Ly. destruct (existsb _ (net_layers _)) eqn:El.
  { assert (NW : ~ widths_ok p) by (intros H; apply Ly in H; discriminate). split; [reflexivity|]. intros; contradiction. }
  assert (WO : widths_ok p) by (apply Ly; reflexivity). split; [intros _ _ _ N; contradiction|].
  intros _ _ _ _ Hm No. destruct (loss_raises dts && negb (tp_max_iter p =? 0)) eqn:LR; [reflexivity|].
  exfalso. apply No. apply Acc; [|exact Hm].
  unfold r. cbv zeta. rewrite <- (net_dims_1 (width X')) by apply hidden_nonempty.
  match goal with |- context [torch_fit ?a ?b ?c ?d ?e ?f ?g ?h ?i ?j] => destruct (fit_bound a b c d e 0 g h i j) as (v & bb & k' & Ef & _) end.
  { intros. apply Hh. } { lia. } { auto. }
  change 1%Qc with (Qcpower ten 0). rewrite Ef. cbn [bind fst snd].
  set (adj := adjacency act grad (tp_bias p) (net_dims (width X') (hidden_units p)) v X' false).
  destruct (matrix_graph_fun (width X') adj) as (g0 & E0 & _). rewrite E0. cbn [bind].
  destruct (threshold_graph (tp_threshold p) _ _ _ E0) as (g1 & E1 & W1 & N1 & A1). unfold threshold_step in E1. rewrite E1. cbn [bind].
  destruct (effects_result _ g1 adj (adjacency act grad (tp_bias p) (net_dims (width X') (hidden_units p)) v X' true) _ W1 N1 A1) as (g2 & E2 & _). rewrite E2. cbn [bind].
  destruct (matrix_graph_fun (m_cols X) (fold_left (fun M dt => collapse_adj dt M) dts adj)) as (gc & Ec & _). rewrite Ec. cbn [bind]. eauto.
Qed.

(** Data frames: the names of the schema are looked up first, then the columns are checked, then the banned names are
    looked up. *)
Theorem torch_frame_refuses fuel opt eh act grad rnd order X schema p t : NoDup (map fst (f_cols X)) ->
  let r := torch_pandas fuel opt eh act grad rnd order X schema p t in
  let named := forall s c a, schema = Some s -> In (c, a) s -> In c (map fst (f_cols X)) in
  let numeric := forall c b, In (c, b) (f_cols X) -> b = true in
  (~ named -> r = Err KeyError) /\ (named -> ~ numeric -> r = Err ValueError) /\
  (named -> numeric -> ~ NotearsAccepts.known (map fst (f_cols X)) t -> r = Err KeyError).
Proof.
  intros N r named numeric. unfold torch_pandas in r. set (cols := map fst (f_cols X)) in *.
  assert (G : forall c, (exists i, get_loc cols c = Ok i) <-> In c cols).
  { intros c. rewrite (NotearsAccepts.idx_known_iff cols N). unfold get_loc, idx_of. destruct (dget label_eqb (col_idx cols) c); split; intros (i & [=]); eauto. }
  assert (G' : forall c, get_loc cols c = Err KeyError \/ exists i, get_loc cols c = Ok i) by (intros c; unfold get_loc; destruct (dget _ _ c); eauto).
  assert (NN : (exists y, schema_index cols schema = Ok y) <-> named).
  { unfold schema_index, named. destruct schema as [s|]; [|split; [intros _ s c a [=]|eauto]]. split.
    - intros (y & E) s' c a [= <-] I. destruct (mapM _ s) as [ys|] eqn:M; [|discriminate]. apply mapM_ok in M. clear E y. apply G.
      induction M as [|[c' a'] y s ys H M IH]; [destruct I|]. destruct I as [[= -> ->]|I]; auto. cbn [fst] in H. destruct (get_loc cols c); [eauto|discriminate].
    - intros H. specialize (fun c a => H s c a eq_refl).
      assert (M : exists ys, mapM (fun ca : label * string => do i <- get_loc cols (fst ca); Ok (i, snd ca)) s = Ok ys); [|destruct M as (ys & ->); cbn [bind]; eauto].
      induction s as [|[c a] s IH]; [exists []; reflexivity|]. destruct (proj2 (G c) (H c a (or_introl eq_refl))) as (i & Ei). cbn [mapM fst snd]. rewrite Ei. cbn [bind].
      destruct IH as (ys & ->); [intros c' a' I; apply (H c' a'); right; exact I|]. cbn [bind]. eauto. }
  assert (NE : forall e, schema_index cols schema = Err e -> e = KeyError).
  { intros e E. unfold schema_index in E. destruct schema as [s|]; [|discriminate].
    destruct (mapM_kind (fun ca : label * string => do i <- get_loc cols (fst ca); Ok (i, snd ca)) KeyError s) as [K|(y & K)].
    - intros [c a]. cbn [fst snd]. destruct (G' c) as [->|(i & ->)]; cbn [bind]; eauto.
    - rewrite K in E. cbn in E. congruence.
    - rewrite K in E. discriminate. }
  destruct (schema_index cols schema) as [sz|e]; cbn [bind] in r.
  2:{ assert (K := NE _ eq_refl). subst e. assert (Nn : ~ named) by (intros H; apply NN in H; destruct H as (y & [=])). split; [reflexivity|]. split; intros; contradiction. }
  assert (Nd : named) by (apply NN; eauto). split; [intros; contradiction|].
  destruct (forallb snd (f_cols X)) eqn:F; cbn [negb] in r.
  - assert (Nu : numeric) by (intros c b I; rewrite forallb_forall in F; apply (F (c, b) I)). split; [intros; contradiction|].
    intros _ _ Nk. unfold r. rewrite (proj2 (NotearsAccepts.tabu_known cols N t) Nk). reflexivity.
  - assert (Nu : ~ numeric) by (intros H; assert (T : forallb snd (f_cols X) = true) by (apply forallb_forall; intros [c b] I; exact (H c b I)); congruence).
    split; [reflexivity|]. intros _ H. contradiction.
Qed.
