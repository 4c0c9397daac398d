(** * TorchProofs: expansion of categorical columns and of the bans. *)
From Coq Require Import List Bool Arith ZArith Lia String QArith Qcanon Permutation Sorted.
From Verif Require Import Base Names Digraph SmModel SmProofs SmBuild QcX NotearsModel NotearsProofs NotearsThms TorchModel TorchSpec.
Import ListNotations.
Local Open Scope string_scope.
Local Open Scope list_scope.
Local Open Scope nat_scope.

(** ** Lists *)
Lemma set_nth_length {A} i (x : A) l : i < List.length l -> List.length (set_nth i x l) = List.length l.
Proof. intros H. unfold set_nth. rewrite app_length, firstn_length. cbn [List.length]. rewrite skipn_length. lia. Qed.
Lemma set_nth_same {A} i (x d : A) l : i < List.length l -> nth i (set_nth i x l) d = x.
Proof. intros H. unfold set_nth. rewrite app_nth2; rewrite firstn_length_le by lia; auto. rewrite Nat.sub_diag. auto. Qed.
Lemma set_nth_other {A} i j (x d : A) l : i < List.length l -> j <> i -> nth j (set_nth i x l) d = nth j l d.
Proof.
  revert i j. induction l as [|a l IH]; intros i j H N; [cbn in H; lia|]. destruct i as [|i]; destruct j as [|j]; cbn; auto; try lia.
  apply (IH i j); cbn in H; lia.
Qed.

Lemma nodup_isort_length l : List.length (categories l) = List.length (nodup Qc_eq_dec l).
Proof. unfold categories. apply isort_length. Qed.
Lemma categories_In x l : In x (categories l) <-> In x l.
Proof. unfold categories. rewrite isort_In. apply nodup_In. Qed.
Lemma categories_NoDup l : NoDup (categories l).
Proof. unfold categories. apply isort_NoDup, NoDup_nodup. Qed.

(** ** One variable *)
Definition rect (X : data) : Prop := Forall (fun r => List.length r = width X) (rows X).

Lemma one_hot_length cs x : List.length (one_hot cs x) = List.length cs.
Proof. apply map_length. Qed.

Lemma expand_row_length i cs r : i < List.length r -> List.length (expand_row i cs r) = List.length r + (List.length cs - 1).
Proof.
  intros H. unfold expand_row. rewrite app_length, set_nth_length by auto.
  assert (T : forall A (l : list A), List.length (tl l) = List.length l - 1) by (intros A [|a l]; cbn; lia).
  rewrite T, one_hot_length. auto.
Qed.
Lemma expand_row_other i j cs r : i < List.length r -> j <> i -> j < List.length r -> nth j (expand_row i cs r) 0%Qc = nth j r 0%Qc.
Proof. intros Hi N Hj. unfold expand_row. rewrite app_nth1 by (rewrite set_nth_length; auto). apply set_nth_other; auto. Qed.

Lemma preprocess_fit_spec k i X t X' : rect X -> i < width X -> preprocess_fit k i X = Ok (t, X') ->
  dt_idx t = i /\ dt_kind t = k /\ rect X' /\
  width X' = width X + (n_columns k (column i X) - 1) /\
  dt_columns t = i :: seq (width X) (n_columns k (column i X) - 1) /\
  (k = Cat -> dt_group t = dt_columns t) /\
  (forall j, j < width X -> j <> i -> column j X' = column j X).
Proof.
  intros R Hi E.
  assert (Rs : forall f : Qc -> Qc, rect (mkData (width X) (map (fun r => set_nth i (f (nth i r 0%Qc)) r) (rows X))) /\
     forall j, j < width X -> j <> i -> column j (mkData (width X) (map (fun r => set_nth i (f (nth i r 0%Qc)) r) (rows X))) = column j X).
  { intros f. split.
    - unfold rect. cbn [rows width]. apply Forall_map. eapply Forall_impl; [|exact R]. intros r Hr. cbn beta in *. rewrite set_nth_length; auto. lia.
    - intros j Hj N. unfold column. cbn [rows]. rewrite map_map. apply map_ext_in. intros r Hr. eapply Forall_forall in Hr; [|exact R]. cbn beta in Hr.
      apply set_nth_other; lia. }
  destruct k; cbn [preprocess_fit n_columns] in *.
  - injection E as <- <-. cbn. repeat split; auto. discriminate.
  - injection E as <- <-. cbn [dt_idx dt_kind dt_columns dt_group width]. rewrite nodup_isort_length. set (n := List.length (nodup Qc_eq_dec (column i X)) - 1).
    replace (width X + n - n) with (width X) by lia. replace (width X + n - width X) with n by lia.
    split; auto. split; auto. split; [|repeat split; auto].
    + unfold rect. cbn [rows width]. apply Forall_map. eapply Forall_impl; [|exact R]. intros r Hr. cbn beta in *. rewrite expand_row_length by lia.
      rewrite nodup_isort_length. lia.
    + intros j Hj N. unfold column. cbn [rows]. rewrite map_map. apply map_ext_in. intros r Hr. eapply Forall_forall in Hr; [|exact R]. cbn beta in Hr.
      apply expand_row_other; lia.
  - injection E as <- <-. cbn. repeat split; auto. discriminate.
  - injection E as <- <-. cbn [dt_idx dt_kind dt_columns dt_group width]. cbn [seq Nat.sub]. rewrite Nat.add_0_r.
    destruct (Rs (fun x => Q2Qc (inject_Z (Z.of_nat (position (categories (column i X)) x))))) as [R1 R2].
    repeat split; auto. discriminate.
  - destruct (existsb _ _); [discriminate|]. injection E as <- <-. cbn. repeat split; auto. discriminate.
Qed.

(** ** The loop over the variables *)
Definition dims_of (X : data) (ks : list (nat * kind)) : list (nat * nat) :=
  map (fun ik => (fst ik, n_columns (snd ik) (column (fst ik) X))) ks.

Definition total (w : nat) (vs : list (nat * nat)) : nat := fold_left (fun w an => w + (snd an - 1)) vs w.

Lemma total_ge vs : forall w, w <= total w vs.
Proof. induction vs as [|[a n] vs IH]; intros w; cbn; [lia|]. eapply Nat.le_trans; [|apply IH]. lia. Qed.

Lemma prepare_layout ks : forall X t dts X' t', rect X -> NoDup (map fst ks) -> (forall i, In i (map fst ks) -> i < width X) ->
  prepare ks X t = Ok (dts, X', t') ->
  map (fun dt => (dt_idx dt, dt_columns dt)) dts = layout (width X) (dims_of X ks) /\
  map (fun dt => (dt_idx dt, dt_kind dt)) dts = ks /\
  (forall dt, In dt dts -> dt_kind dt = Cat -> dt_group dt = dt_columns dt) /\
  width X' = total (width X) (dims_of X ks) /\ rect X' /\ List.length (rows X') = List.length (rows X).
Proof.
  induction ks as [|[i k] ks IH]; intros X t dts X' t' R N B E; cbn [prepare] in E.
  - injection E as <- <- <-. cbn. repeat split; auto. tauto.
  - apply bind_ok in E. destruct E as ([dt X1] & E1 & E). apply bind_ok in E. destruct E as ([[dts1 X2] t2] & E2 & E). cbn [fst snd] in *. injection E as <- <- <-.
    cbn in N. apply NoDup_cons_iff in N. destruct N as [Ni N].
    destruct (preprocess_fit_spec k i X dt X1 R (B i (or_introl eq_refl)) E1) as (Ei & Ek & R1 & W1 & C1 & G1 & O1).
    assert (D : dims_of X1 ks = dims_of X ks).
    { unfold dims_of. apply map_ext_in. intros [j kj] Hj. cbn [fst snd]. rewrite O1; auto.
      - apply B. right. apply in_map_iff. exists (j, kj). auto.
      - intros ->. apply Ni. apply in_map_iff. exists (i, kj). auto. }
    assert (B1 : forall j, In j (map fst ks) -> j < width X1) by (intros j Hj; rewrite W1; pose proof (B j (or_intror Hj)); lia).
    destruct (IH _ _ _ _ _ R1 N B1 E2) as (L & K & G & W & R2 & Rw).
    cbn [map dims_of layout]. fold (dims_of X ks). rewrite L, K, Ei, Ek, C1, W1, D. repeat split; auto.
    + intros dt' [<-|Hd]; auto. rewrite Ek; auto.
    + cbn [total fold_left snd]. rewrite W, W1, D. reflexivity.
    + rewrite Rw. clear - E1. destruct k; cbn in E1; try (injection E1 as _ <-; cbn; rewrite ?map_length; auto).
      destruct (existsb _ _); [discriminate|]. injection E1 as _ <-. auto.
Qed.

(** ** The columns of different variables are different *)
Lemma layout_keys w vs : map fst (layout w vs) = map fst vs.
Proof. revert w. induction vs as [|[a n] vs IH]; intros w; cbn; auto. f_equal; auto. Qed.

Lemma layout_ge vs : forall w a cs x, In (a, cs) (layout w vs) -> In x cs -> x = a \/ (w <= x < total w vs).
Proof.
  induction vs as [|[b n] vs IH]; intros w a cs x H Hx; cbn in *; [tauto|]. pose proof (total_ge vs (w + (n - 1))) as T. unfold total in *. cbn [fold_left snd].
  destruct H as [[= <- <-]|H].
  - destruct Hx as [<-|Hx]; auto. apply in_seq in Hx. right. lia.
  - destruct (IH _ _ _ _ H Hx) as [->|Q]; auto. right. lia.
Qed.

Lemma layout_head vs : forall w a cs, In (a, cs) (layout w vs) -> In a cs.
Proof. induction vs as [|[b n] vs IH]; intros w a cs H; cbn in *; [tauto|]. destruct H as [[= <- <-]|H]; [left; auto|eauto]. Qed.

Lemma layout_nodup vs : forall w a cs, (forall b, In b (map fst vs) -> b < w) -> In (a, cs) (layout w vs) -> NoDup cs.
Proof.
  induction vs as [|[b n] vs IH]; intros w a cs B H; cbn in *; [tauto|]. destruct H as [[= <- <-]|H].
  - constructor; [|apply seq_NoDup]. intros I. apply in_seq in I. pose proof (B b (or_introl eq_refl)). lia.
  - eapply IH; [|exact H]. intros c Hc. pose proof (B c (or_intror Hc)). lia.
Qed.

Lemma layout_disjoint vs : forall w a b ca cb x, NoDup (map fst vs) -> (forall b, In b (map fst vs) -> b < w) ->
  In (a, ca) (layout w vs) -> In (b, cb) (layout w vs) -> In x ca -> In x cb -> a = b.
Proof.
  induction vs as [|[c n] vs IH]; intros w a b ca cb x N B Ha Hb Xa Xb; cbn in *; [tauto|]. apply NoDup_cons_iff in N. destruct N as [Nc N].
  assert (P : forall a' ca', In (a', ca') (layout (w + (n - 1)) vs) -> In x ca' -> In x (c :: seq w (n - 1)) -> False).
  { intros a' ca' H1 H2 H3. assert (Ia : In a' (map fst vs)) by (rewrite <- (layout_keys (w + (n - 1))); apply in_map_iff; exists (a', ca'); auto).
    destruct (layout_ge _ _ _ _ _ H1 H2) as [->|Q].
    - destruct H3 as [->|H3]; [tauto|]. apply in_seq in H3. pose proof (B a' (or_intror Ia)). lia.
    - destruct H3 as [->|H3]; [pose proof (B x (or_introl eq_refl)); lia|]. apply in_seq in H3. lia. }
  destruct Ha as [[= <- <-]|Ha]; destruct Hb as [[= <- <-]|Hb]; auto.
  - exfalso. eapply P; eauto.
  - exfalso. eapply P; eauto.
  - eapply (IH (w + (n - 1))); eauto. intros d Hd. pose proof (B d (or_intror Hd)). lia.
Qed.

Lemma layout_covers vs : forall w x, (In x (map fst vs) \/ w <= x < total w vs) -> exists a cs, In (a, cs) (layout w vs) /\ In x cs.
Proof.
  induction vs as [|[b n] vs IH]; intros w x H; cbn in *; [lia|]. unfold total in H. cbn [fold_left snd] in H. fold (total (w + (n - 1)) vs) in H.
  destruct (Nat.lt_ge_cases x w) as [Hx|Hx].
  - destruct H as [[->|H]|H]; [exists x; eexists; split; [left; reflexivity|left; auto]| |lia].
    destruct (IH (w + (n - 1)) x (or_introl H)) as (a & cs & H1 & H2). eauto.
  - destruct (Nat.lt_ge_cases x (w + (n - 1))) as [Hy|Hy].
    + exists b. eexists. split; [left; reflexivity|]. right. apply in_seq. lia.
    + destruct H as [[->|H]|H].
      * exists x. eexists. split; [left; reflexivity|left; auto].
      * destruct (IH (w + (n - 1)) x (or_introl H)) as (a & cs & H1 & H2). eauto.
      * destruct (IH (w + (n - 1)) x) as (a & cs & H1 & H2); [right; lia|]. eauto.
Qed.

(** ** Bans of expanded columns *)
Definition ecols (dts : list dtype) (a : nat) : list nat := columns_of (map (fun dt => (dt_idx dt, dt_columns dt)) dts) a.

Lemma permutations2_In l x y : NoDup l -> In x l -> In y l -> x <> y -> In (x, y) (permutations2 l).
Proof.
  intros N Hx Hy Nxy. apply (In_nth _ _ 0) in Hx, Hy. destruct Hx as (p & Hp & Ex). destruct Hy as (q & Hq & Ey).
  unfold permutations2. apply in_flat_map. exists p. split; [apply in_seq; lia|]. apply in_map_iff. exists q. split; [congruence|].
  apply filter_In. split; [apply in_seq; lia|]. apply negb_true_iff, Nat.eqb_neq. congruence.
Qed.

Definition zedge (t : tabu Z) (a b : nat) : Prop := exists l, t_edges t = Some l /\ In (Z.of_nat a, Z.of_nat b) l.
Definition zparent (t : tabu Z) (a : nat) : Prop := exists l, t_parents t = Some l /\ In (Z.of_nat a) l.
Definition zchild (t : tabu Z) (a : nat) : Prop := exists l, t_children t = Some l /\ In (Z.of_nat a) l.

Lemma banned_split t a b : banned t (Z.of_nat a) (Z.of_nat b) <-> zedge t a b \/ zparent t a \/ zchild t b.
Proof. reflexivity. Qed.

Definition step_tabu (dt : dtype) (t : tabu Z) : tabu Z :=
  mkTabu (preprocess_tabu_edges dt (t_edges t)) (preprocess_tabu_nodes dt (t_parents t)) (preprocess_tabu_nodes dt (t_children t)).

Lemma step_edge_mono dt t a b : zedge t a b -> zedge (step_tabu dt t) a b.
Proof.
  intros (l & E & I). unfold zedge, step_tabu, preprocess_tabu_edges. cbn [t_edges]. rewrite E. destruct (dt_kind dt); eauto.
  destruct (dt_group dt) as [|o rest]; eauto. eexists. split; [reflexivity|]. apply in_or_app. auto.
Qed.

Lemma nodes_mono dt o l : o = Some l -> exists l', preprocess_tabu_nodes dt o = Some l' /\ forall x, In x l -> In x l'.
Proof.
  intros ->. unfold preprocess_tabu_nodes. destruct (dt_kind dt); eauto. destruct (dt_group dt); eauto.
  eexists. split; [reflexivity|]. intros x Hx. apply in_or_app. auto.
Qed.
Lemma step_parent_mono dt t a : zparent t a -> zparent (step_tabu dt t) a.
Proof. intros (l & E & I). destruct (nodes_mono dt _ _ E) as (l' & E' & M). exists l'. split; auto. Qed.
Lemma step_child_mono dt t a : zchild t a -> zchild (step_tabu dt t) a.
Proof. intros (l & E & I). destruct (nodes_mono dt _ _ E) as (l' & E' & M). exists l'. split; auto. Qed.

(** The columns of one variable, after its own step *)
Definition good_dt (dt : dtype) : Prop :=
  match dt_kind dt with Cat => exists ex, dt_group dt = dt_idx dt :: ex /\ NoDup (dt_group dt) | _ => True end.

Lemma step_edge_start dt t b x : good_dt dt -> zedge t (dt_idx dt) b -> In x (dt_columns dt) -> zedge (step_tabu dt t) x b.
Proof.
  intros G (l & E & I) Hx. unfold good_dt, dt_columns in *. unfold zedge, step_tabu, preprocess_tabu_edges. cbn [t_edges]. rewrite E.
  destruct (dt_kind dt); try (destruct Hx as [<-|[]]; eauto). destruct G as (ex & Eg & _). rewrite Eg in *. eexists. split; [reflexivity|].
  destruct Hx as [<-|Hx]; [apply in_or_app; auto|]. apply in_or_app. right. apply in_or_app. left. apply in_flat_map. exists (Z.of_nat (dt_idx dt), Z.of_nat b).
  split; auto. cbn [fst snd]. rewrite Z.eqb_refl. apply in_map_iff. eauto.
Qed.
Lemma step_edge_end dt t a y : good_dt dt -> a <> dt_idx dt -> zedge t a (dt_idx dt) -> In y (dt_columns dt) -> zedge (step_tabu dt t) a y.
Proof.
  intros G N (l & E & I) Hx. unfold good_dt, dt_columns in *. unfold zedge, step_tabu, preprocess_tabu_edges. cbn [t_edges]. rewrite E.
  destruct (dt_kind dt); try (destruct Hx as [<-|[]]; eauto). destruct G as (ex & Eg & _). rewrite Eg in *. eexists. split; [reflexivity|].
  destruct Hx as [<-|Hx]; [apply in_or_app; auto|]. apply in_or_app. right. apply in_or_app. left. apply in_flat_map. exists (Z.of_nat a, Z.of_nat (dt_idx dt)).
  split; auto. cbn [fst snd]. destruct (Z.eqb_spec (Z.of_nat a) (Z.of_nat (dt_idx dt))) as [Ez|]; [lia|]. rewrite Z.eqb_refl. apply in_map_iff. eauto.
Qed.
Lemma step_edge_group dt t x y : good_dt dt -> In x (dt_columns dt) -> In y (dt_columns dt) -> x <> y -> zedge (step_tabu dt t) x y.
Proof.
  intros G Hx Hy N. unfold good_dt, dt_columns in *. unfold zedge, step_tabu, preprocess_tabu_edges. cbn [t_edges].
  destruct (dt_kind dt); try (destruct Hx as [<-|[]]; destruct Hy as [<-|[]]; congruence). destruct G as (ex & Eg & ND). rewrite Eg in *.
  eexists. split; [reflexivity|]. apply in_or_app. right. apply in_or_app. right. apply in_map_iff. exists (x, y). split; auto. apply permutations2_In; auto.
Qed.
Lemma step_nodes_group dt o l x : good_dt dt -> o = Some l -> In (Z.of_nat (dt_idx dt)) l -> In x (dt_columns dt) ->
  exists l', preprocess_tabu_nodes dt o = Some l' /\ In (Z.of_nat x) l'.
Proof.
  intros G -> I Hx. unfold good_dt, dt_columns, preprocess_tabu_nodes in *. destruct (dt_kind dt); try (destruct Hx as [<-|[]]; eauto).
  destruct G as (ex & Eg & _). rewrite Eg in *. eexists. split; [reflexivity|]. apply in_or_app.
  destruct Hx as [<-|Hx]; auto. right. apply in_flat_map. eexists. split; [exact I|]. rewrite Z.eqb_refl. apply in_map. auto.
Qed.

Fixpoint steps (dts : list dtype) (t : tabu Z) : tabu Z := match dts with [] => t | dt :: rest => steps rest (step_tabu dt t) end.

Lemma prepare_steps ks : forall X t dts X' t', prepare ks X t = Ok (dts, X', t') -> t' = steps dts t.
Proof.
  induction ks as [|[i k] ks IH]; intros X t dts X' t' E; cbn [prepare] in E.
  - injection E as <- <- <-. auto.
  - apply bind_ok in E. destruct E as ([dt X1] & E1 & E). apply bind_ok in E. destruct E as ([[dts1 X2] t2] & E2 & E). cbn [fst snd] in *. injection E as <- <- <-.
    cbn. eapply IH. exact E2.
Qed.

Lemma steps_edge_mono dts : forall t a b, zedge t a b -> zedge (steps dts t) a b.
Proof. induction dts; intros; cbn; auto. apply IHdts, step_edge_mono. auto. Qed.
Lemma steps_parent_mono dts : forall t a, zparent t a -> zparent (steps dts t) a.
Proof. induction dts; intros; cbn; auto. apply IHdts, step_parent_mono. auto. Qed.
Lemma steps_child_mono dts : forall t a, zchild t a -> zchild (steps dts t) a.
Proof. induction dts; intros; cbn; auto. apply IHdts, step_child_mono. auto. Qed.

Lemma ecols_cons dt dts a : ecols (dt :: dts) a = if a =? dt_idx dt then dt_columns dt else ecols dts a.
Proof. unfold ecols, columns_of. cbn. destruct (a =? dt_idx dt); auto. Qed.
Lemma ecols_none dts a : ~ In a (map dt_idx dts) -> ecols dts a = [a].
Proof.
  intros H. unfold ecols, columns_of. replace (dget Nat.eqb _ a) with (@None (list nat)); auto. symmetry. apply (dget_None _ Nat.eqb_spec).
  unfold dkeys. rewrite map_map. exact H.
Qed.

(** The extra columns of a variable are not variables. *)
Definition fresh_columns (dts : list dtype) : Prop :=
  forall dt x, In dt dts -> In x (dt_columns dt) -> x <> dt_idx dt -> ~ In x (map dt_idx dts).

Lemma steps_bans dts : forall t, NoDup (map dt_idx dts) -> Forall good_dt dts -> fresh_columns dts ->
  (forall a b x y, zedge t a b -> In x (ecols dts a) -> In y (ecols dts b) -> x <> y -> zedge (steps dts t) x y) /\
  (forall a x y, In a (map dt_idx dts) -> In x (ecols dts a) -> In y (ecols dts a) -> x <> y -> zedge (steps dts t) x y) /\
  (forall a x, zparent t a -> In x (ecols dts a) -> zparent (steps dts t) x) /\
  (forall a x, zchild t a -> In x (ecols dts a) -> zchild (steps dts t) x).
Proof.
  induction dts as [|dt dts IH]; intros t N G F.
  - cbn. repeat split; try tauto.
    + intros a b x y H [<-|[]] [<-|[]] _. auto.
    + intros a x H [<-|[]]. auto.
    + intros a x H [<-|[]]. auto.
  - cbn in N. apply NoDup_cons_iff in N. destruct N as [Nd N]. apply Forall_cons_iff in G. destruct G as [Gd G].
    assert (F' : fresh_columns dts) by (intros d x Hd Hx Nx I; apply (F d x (or_intror Hd) Hx Nx); right; auto).
    assert (Fx : forall x, In x (dt_columns dt) -> ecols dts x = [x]).
    { intros x Hx. apply ecols_none. intros I. destruct (Nat.eq_dec x (dt_idx dt)) as [->|Ne]; [tauto|]. apply (F dt x (or_introl eq_refl) Hx Ne). right. auto. }
    destruct (IH (step_tabu dt t) N G F') as (I1 & I2 & I3 & I4). cbn [steps]. repeat split.
    + intros a b x y H Hx Hy Nxy. rewrite ecols_cons in Hx, Hy. destruct (Nat.eqb_spec a (dt_idx dt)) as [->|Na]; destruct (Nat.eqb_spec b (dt_idx dt)) as [->|Nb].
      * apply steps_edge_mono. apply step_edge_group; auto.
      * apply (I1 x b); auto; [apply step_edge_start; auto|rewrite Fx by auto; left; auto].
      * apply (I1 a y); auto; [apply step_edge_end; auto|rewrite Fx by auto; left; auto].
      * apply (I1 a b); auto. apply step_edge_mono; auto.
    + intros a x y H Hx Hy Nxy. rewrite ecols_cons in Hx, Hy. destruct (Nat.eqb_spec a (dt_idx dt)) as [->|Na].
      * apply steps_edge_mono. apply step_edge_group; auto.
      * cbn in H. destruct H as [H|H]; [congruence|]. apply (I2 a); auto.
    + intros a x H Hx. rewrite ecols_cons in Hx. destruct (Nat.eqb_spec a (dt_idx dt)) as [->|Na].
      * apply steps_parent_mono. destruct H as (l & E & I). unfold zparent, step_tabu. cbn [t_parents]. eapply step_nodes_group; eauto.
      * apply (I3 a); auto. apply step_parent_mono; auto.
    + intros a x H Hx. rewrite ecols_cons in Hx. destruct (Nat.eqb_spec a (dt_idx dt)) as [->|Na].
      * apply steps_child_mono. destruct H as (l & E & I). unfold zchild, step_tabu. cbn [t_children]. eapply step_nodes_group; eauto.
      * apply (I4 a); auto. apply step_child_mono; auto.
Qed.
