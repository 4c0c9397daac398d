(** * TorchExact: the torch version forbids what was banned and nothing else; the bounds it hands to the optimiser. *)
From Coq Require Import List Bool Arith ZArith Lia String QArith Qcanon.
From Verif Require Import Base Names Digraph SmModel SmProofs SmBuild QcX NotearsModel NotearsProofs NotearsThms TorchModel TorchSpec TorchProofs TorchThms TorchGraph TorchResult.
Import ListNotations.
Local Open Scope list_scope.
Local Open Scope nat_scope.

(** ** Specification *)

(** The banned edges and nodes are among the [n] variables. *)
Definition tabu_within (n : nat) (t : tabu Z) : Prop :=
  (forall l u v, t_edges t = Some l -> In (u, v) l -> (0 <= u < Z.of_nat n)%Z /\ (0 <= v < Z.of_nat n)%Z) /\
  (forall l u, t_parents t = Some l \/ t_children t = Some l -> In u l -> (0 <= u < Z.of_nat n)%Z).

(** Column [x] may act on column [y]: they belong to two variables, and the edge between these is not banned.
    [L]: the columns of each of the [n] variables. *)
Definition open_column (L : list (nat * list nat)) (n : nat) (t : tabu Z) (x y : nat) : Prop :=
  exists a b, a < n /\ b < n /\ In x (columns_of L a) /\ In y (columns_of L b) /\ a <> b /\ ~ banned t (Z.of_nat a) (Z.of_nat b).

(** The bounds of the [size] parameters.  First come the weights of [d] columns in each of the [m] units of [d] columns: such a
    weight is free if the column may act, and is kept at zero otherwise.  All other parameters are free. *)
Definition torch_question (d m size : nat) (may : nat -> nat -> Prop) (bs : list bound) : Prop :=
  List.length bs = size /\
  (forall i j u, i < d -> j < d -> u < m ->
     (may i j -> nth ((j * m + u) * d + i) bs fixed0 = free) /\ (~ may i j -> nth ((j * m + u) * d + i) bs free = fixed0)) /\
  (forall q, d * m * d <= q < size -> nth q bs fixed0 = free).

(** ** Nothing more is banned *)
Section Own.
  Variables (Own : nat -> nat -> Prop) (E : nat -> nat -> Prop).
  Hypothesis Uniq : forall x a b, Own x a -> Own x b -> a = b.

  Definition fair_edges (o : option (list (Z * Z))) : Prop :=
    forall l u v, o = Some l -> In (u, v) l -> exists x y a b, u = Z.of_nat x /\ v = Z.of_nat y /\ Own x a /\ Own y b /\ (a = b \/ E a b).
  Definition fair_nodes (P : nat -> Prop) (o : option (list Z)) : Prop :=
    forall l u, o = Some l -> In u l -> exists x a, u = Z.of_nat x /\ Own x a /\ P a.

  Lemma permutations2_inv l x y : In (x, y) (permutations2 l) -> In x l /\ In y l.
  Proof.
    unfold permutations2. intros H. apply in_flat_map in H as (p & Hp & H). apply in_map_iff in H as (q & [= <- <-] & Hq). apply filter_In in Hq as [Hq _].
    apply in_seq in Hp, Hq. split; apply nth_In; lia.
  Qed.

  Lemma edges_fair dt o : good_dt dt -> (forall x, In x (dt_columns dt) -> Own x (dt_idx dt)) -> fair_edges o -> fair_edges (preprocess_tabu_edges dt o).
  Proof.
    intros G Ow F. unfold preprocess_tabu_edges, good_dt, dt_columns in *. destruct (dt_kind dt); auto. destruct G as (ex & Eg & _). rewrite Eg in *.
    assert (F' : fair_edges (Some (match o with Some l => l | None => [] end))).
    { destruct o as [l|]; auto. intros l u v [= <-] []. }
    intros l u v [= <-] I. apply in_app_iff in I as [I|I]; [eapply F'; eauto|]. apply in_app_iff in I as [I|I].
    - apply in_flat_map in I as ([u0 v0] & I0 & I). destruct (F' _ u0 v0 eq_refl I0) as (x & y & a & b & -> & -> & Ox & Oy & Ab). cbn [fst snd] in I.
      destruct (Z.eqb_spec (Z.of_nat x) (Z.of_nat (dt_idx dt))) as [Ez|_].
      + apply in_map_iff in I as (z & [= <- <-] & Hz). apply Nat2Z.inj in Ez. subst x. rewrite (Uniq _ _ _ Ox (Ow (dt_idx dt) (or_introl eq_refl))) in Ab.
        exists z, y, (dt_idx dt), b. repeat split; auto. apply Ow. right. auto.
      + destruct (Z.eqb_spec (Z.of_nat y) (Z.of_nat (dt_idx dt))) as [Ez|_]; [|destruct I].
        apply in_map_iff in I as (z & [= <- <-] & Hz). apply Nat2Z.inj in Ez. subst y. rewrite (Uniq _ _ _ Oy (Ow (dt_idx dt) (or_introl eq_refl))) in Ab.
        exists x, z, a, (dt_idx dt). repeat split; auto. apply Ow. right. auto.
    - apply in_map_iff in I as ([x y] & [= <- <-] & I). apply permutations2_inv in I as [Hx Hy]. exists x, y, (dt_idx dt), (dt_idx dt). auto 10.
  Qed.

  Lemma nodes_fair P dt o : good_dt dt -> (forall x, In x (dt_columns dt) -> Own x (dt_idx dt)) -> fair_nodes P o -> fair_nodes P (preprocess_tabu_nodes dt o).
  Proof.
    intros G Ow F. unfold preprocess_tabu_nodes, good_dt, dt_columns in *. destruct (dt_kind dt); auto. destruct G as (ex & Eg & _). rewrite Eg in *.
    destruct o as [l0|]; [|intros l u [=]]. intros l u [= <-] I. apply in_app_iff in I as [I|I]; [eapply F; eauto|].
    apply in_flat_map in I as (u0 & I0 & I). destruct (F _ u0 eq_refl I0) as (x & a & -> & Ox & Pa).
    destruct (Z.eqb_spec (Z.of_nat x) (Z.of_nat (dt_idx dt))) as [Ez|_]; [|destruct I]. apply in_map_iff in I as (z & <- & Hz). apply Nat2Z.inj in Ez. subst x.
    rewrite (Uniq _ _ _ Ox (Ow (dt_idx dt) (or_introl eq_refl))) in Pa. exists z, (dt_idx dt). repeat split; auto. apply Ow. right. auto.
  Qed.

  Lemma steps_fair P Q dts : forall t, Forall good_dt dts -> (forall dt x, In dt dts -> In x (dt_columns dt) -> Own x (dt_idx dt)) ->
    fair_edges (t_edges t) -> fair_nodes P (t_parents t) -> fair_nodes Q (t_children t) ->
    fair_edges (t_edges (steps dts t)) /\ fair_nodes P (t_parents (steps dts t)) /\ fair_nodes Q (t_children (steps dts t)).
  Proof.
    induction dts as [|dt dts IH]; intros t G Ow F1 F2 F3; cbn [steps]; auto. apply Forall_cons_iff in G as [Gd G].
    apply IH; auto; [intros; eapply Ow; eauto; right; auto| | |]; cbn [step_tabu t_edges t_parents t_children].
    - apply edges_fair; auto. intros. apply (Ow dt); [left|]; auto.
    - apply nodes_fair; auto. intros. apply (Ow dt); [left|]; auto.
    - apply nodes_fair; auto. intros. apply (Ow dt); [left|]; auto.
  Qed.
End Own.

Lemma own_first X ks t dts X' t' a : facts X ks t dts X' t' -> a < m_cols X -> In a (columns_of (expanded X ks) a).
Proof.
  intros F Ha. rewrite <- (fa_layout _ _ _ _ _ _ F). change (In a (ecols dts a)). assert (I : In a (map dt_idx dts)) by (apply (fa_vars _ _ _ _ _ _ F); auto).
  pose proof (fa_good _ _ _ _ _ _ F) as G. clear F. induction dts as [|dt dts IH]; [destruct I|]. rewrite ecols_cons. apply Forall_cons_iff in G as [Gd G].
  destruct (Nat.eqb_spec a (dt_idx dt)) as [->|N].
  - unfold good_dt, dt_columns in *. destruct (dt_kind dt); try (left; reflexivity). destruct Gd as (ex & -> & _). left. auto.
  - apply IH; auto. destruct I as [<-|I]; [destruct (N eq_refl)|auto].
Qed.

Lemma own_columns X ks t dts X' t' dt x : facts X ks t dts X' t' -> In dt dts -> In x (dt_columns dt) -> dt_idx dt < m_cols X /\ In x (columns_of (expanded X ks) (dt_idx dt)).
Proof.
  intros F Hd Hx. split; [apply (fa_vars _ _ _ _ _ _ F), in_map; auto|].
  rewrite (columns_of_In _ (dt_idx dt) (dt_columns dt)); auto; rewrite <- (fa_layout _ _ _ _ _ _ F).
  - rewrite map_map. apply (fa_nodup _ _ _ _ _ _ F).
  - apply in_map_iff. eauto.
Qed.

Lemma within_nat n u : (0 <= u < Z.of_nat n)%Z -> exists a, a < n /\ u = Z.of_nat a.
Proof. intros H. exists (Z.to_nat u). lia. Qed.

Lemma facts_open X schema ks t dts X' t' x y a b : rectangular X -> (forall s, schema = Some s -> NoDup (map fst s)) -> schema_kinds (m_cols X) schema = Ok ks ->
  prepare ks (start_data X) t = Ok (dts, X', t') -> tabu_within (m_cols X) t -> a < m_cols X -> b < m_cols X ->
  In x (columns_of (expanded X ks) a) -> In y (columns_of (expanded X ks) b) ->
  (x = y \/ banned t' (Z.of_nat x) (Z.of_nat y)) <-> (a = b \/ banned t (Z.of_nat a) (Z.of_nat b)).
Proof.
  intros R Ns Ek Ep W Ha Hb Hx Hy. pose proof (prepare_facts _ _ _ _ _ _ _ R Ns Ek Ep) as F. split; [|apply (facts_banned _ _ _ _ _ _ a b x y F); auto].
  set (Own := fun x a => a < m_cols X /\ In x (columns_of (expanded X ks) a)).
  assert (U : forall x a b, Own x a -> Own x b -> a = b) by (intros z c e [C1 C2] [E1 E2]; eapply (fa_uniq _ _ _ _ _ _ F); eauto).
  assert (Ox : Own x a) by (split; auto). assert (Oy : Own y b) by (split; auto).
  intros [<-|B]; [left; eapply U; eauto|]. rewrite (prepare_steps _ _ _ _ _ _ Ep) in B.
  assert (O0 : forall u, (0 <= u < Z.of_nat (m_cols X))%Z -> exists c, u = Z.of_nat c /\ Own c c).
  { intros u Hu. destruct (within_nat _ _ Hu) as (c & Hc & ->). exists c. split; auto. split; auto. eapply own_first; eauto. }
  destruct W as [We Wn].
  destruct (steps_fair Own (fun a b => zedge t a b) U (fun a => zparent t a) (fun a => zchild t a) dts t (fa_good _ _ _ _ _ _ F)) as (F1 & F2 & F3).
  - intros dt z Hd Hz. exact (own_columns _ _ _ _ _ _ dt z F Hd Hz).
  - intros l u v El I. destruct (We l u v El I) as [Wu Wv]. destruct (O0 u Wu) as (c & -> & Oc). destruct (O0 v Wv) as (e & -> & Oe). exists c, e, c, e. repeat split; try apply Oc; try apply Oe. right. exists l. auto.
  - intros l u El I. destruct (O0 u (Wn l u (or_introl El) I)) as (c & -> & Oc). exists c, c. repeat split; try apply Oc. exists l. auto.
  - intros l u El I. destruct (O0 u (Wn l u (or_intror El) I)) as (c & -> & Oc). exists c, c. repeat split; try apply Oc. exists l. auto.
  - destruct B as [(l & El & I)|[(l & El & I)|(l & El & I)]].
    + destruct (F1 l _ _ El I) as (x' & y' & c & e & Ex & Ey & Oc & Oe & Ce). apply Nat2Z.inj in Ex, Ey. subst x' y'. rewrite (U _ _ _ Ox Oc), (U _ _ _ Oy Oe). destruct Ce as [->|Ce]; auto. right. left. exact Ce.
    + destruct (F2 l _ El I) as (x' & c & Ex & Oc & Pc). apply Nat2Z.inj in Ex. subst x'. rewrite (U _ _ _ Ox Oc). right. right. left. exact Pc.
    + destruct (F3 l _ El I) as (x' & c & Ex & Oc & Pc). apply Nat2Z.inj in Ex. subst x'. rewrite (U _ _ _ Oy Oc). right. right. right. exact Pc.
Qed.

Lemma zmem_iff z l : zmem z l = true <-> In z l.
Proof. unfold zmem. rewrite existsb_exists. split; [intros (u & Hu & Eu); apply Z.eqb_eq in Eu; subst; auto|intros I; exists z; rewrite Z.eqb_refl; auto]. Qed.
Lemma zzmem_iff z w l : zzmem z w l = true <-> In (z, w) l.
Proof.
  unfold zzmem. rewrite existsb_exists. split.
  - intros ([u v] & Hu & Eu). cbn [fst snd] in Eu. apply andb_true_iff in Eu as [Eu Ev]. apply Z.eqb_eq in Eu, Ev. subst. auto.
  - intros I. exists (z, w). cbn [fst snd]. rewrite !Z.eqb_refl. auto.
Qed.
Lemma on_list_iff {A} (o : option (list A)) f : on_list o f = true <-> exists l, o = Some l /\ f l = true.
Proof. destruct o as [l|]; cbn; split; [eauto|intros (l' & [= <-] & H); auto|discriminate|intros (l' & [=] & _)]. Qed.

Lemma bnd_cases t i j : let B := i = j \/ banned t (Z.of_nat i) (Z.of_nat j) in (B /\ bnd t free i j = fixed0) \/ (~ B /\ bnd t free i j = free).
Proof.
  intros B. unfold bnd. destruct (Nat.eqb_spec i j) as [->|Ne]; [left; split; auto; left; auto|].
  assert (I1 : on_list (t_edges t) (zzmem (Z.of_nat i) (Z.of_nat j)) = true <-> exists l, t_edges t = Some l /\ In (Z.of_nat i, Z.of_nat j) l).
  { rewrite on_list_iff. split; intros (l & El & H); exists l; split; auto; apply zzmem_iff; auto. }
  assert (I2 : forall o z, on_list o (zmem z) = true <-> exists l, o = Some l /\ In z l).
  { intros o z. rewrite on_list_iff. split; intros (l & El & H); exists l; split; auto; apply zmem_iff; auto. }
  pose proof (I2 (t_parents t) (Z.of_nat i)) as Ip. pose proof (I2 (t_children t) (Z.of_nat j)) as Ic. unfold B, banned.
  destruct (on_list (t_edges t) _); [left; split; auto; right; left; apply I1; auto|].
  destruct (on_list (t_parents t) _); [left; split; auto; right; right; left; apply Ip; auto|].
  destruct (on_list (t_children t) _); [left; split; auto; right; right; right; apply Ic; auto|].
  right. split; auto. intros [E|[E|[E|E]]]; [auto|apply I1 in E|apply Ip in E|apply Ic in E]; discriminate.
Qed.

Theorem torch_bounds X schema ks t dts X' t' bias dims : rectangular X -> (forall s, schema = Some s -> NoDup (map fst s)) -> schema_kinds (m_cols X) schema = Ok ks ->
  prepare ks (start_data X) t = Ok (dts, X', t') -> tabu_within (m_cols X) t ->
  let d := width X' in let m := nth 1 dims 0 in
  torch_question d m (n_params d bias dims) (open_column (expanded X ks) (m_cols X) t)
    (torch_bnds t' d m ++ repeat free (n_params d bias dims - n_weights d m)).
Proof.
  intros R Ns Ek Ep W d m. pose proof (prepare_facts _ _ _ _ _ _ _ R Ns Ek Ep) as F.
  assert (Le : n_weights d m <= n_params d bias dims) by (unfold n_params; subst m; lia).
  assert (Lb : List.length (torch_bnds t' d m) = n_weights d m) by apply torch_bnds_length.
  split; [rewrite app_length, Lb, repeat_length; lia|]. split.
  - intros i j u Hi Hj Hu. pose proof (weight_index d m j u i Hj Hu Hi) as Hx.
    destruct (proj1 (fa_cover _ _ _ _ _ _ F i) Hi) as (a & Ha & Ia). destruct (proj1 (fa_cover _ _ _ _ _ _ F j) Hj) as (b & Hb & Ib).
    pose proof (facts_open X schema ks t dts X' t' i j a b R Ns Ek Ep W Ha Hb Ia Ib) as Eq.
    split; intros M; rewrite app_nth1 by lia; rewrite torch_bnds_nth by auto; destruct (bnd_cases t' i j) as [[B ->]|[B ->]]; auto; exfalso; rewrite Eq in B.
    + destruct M as (a' & b' & Ha' & Hb' & Ia' & Ib' & N & NB).
      rewrite <- (fa_uniq _ _ _ _ _ _ F _ _ _ Ha Ha' Ia Ia') in *. rewrite <- (fa_uniq _ _ _ _ _ _ F _ _ _ Hb Hb' Ib Ib') in *. tauto.
    + apply M. exists a, b. auto 10.
  - intros q [H1 H2]. change (n_weights d m <= q) in H1. rewrite app_nth2 by lia. rewrite Lb.
    rewrite (nth_indep _ fixed0 free) by (rewrite repeat_length; lia). apply nth_repeat.
Qed.

(** The bounds for a call of the torch version, on data with a value in every place, a schema that names no variable twice
    and bans that name variables. *)
Definition torch_asks (X : mat) (schema : option (list (nat * string))) (p : tparams) (t : tabu Z) (l : learned) (bs : list bound) : Prop :=
  forall ks, rectangular X -> (forall s, schema = Some s -> NoDup (map fst s)) -> schema_kinds (m_cols X) schema = Ok ks -> tabu_within (m_cols X) t ->
    let d := nth 0 (l_dims l) 0 in torch_question d (nth 1 (l_dims l) 0) (n_params d (tp_bias p) (l_dims l)) (open_column (expanded X ks) (m_cols X) t) bs.

Lemma outcome_asks fuel opt eh act grad rnd X schema p t l ks dts X' t' : schema_kinds (m_cols X) schema = Ok ks -> prepare ks (start_data X) t = Ok (dts, X', t') ->
  outcome fuel opt eh act grad rnd X p ks dts X' t' l -> let d := width X' in let m := nth 1 (l_dims l) 0 in
  torch_asks X schema p t l (torch_bnds t' d m ++ repeat free (n_params d (tp_bias p) (l_dims l) - n_weights d m)).
Proof.
  intros Ek Ep O d m ks' R Ns Ek' W. rewrite Ek in Ek'. injection Ek' as <-.
  assert (E0 : nth 0 (l_dims l) 0 = width X') by (rewrite (oc_dims _ _ _ _ _ _ _ _ _ _ _ _ _ O); apply net_dims_0).
  rewrite E0. exact (torch_bounds X schema ks t dts X' t' (tp_bias p) (l_dims l) R Ns Ek Ep W).
Qed.
