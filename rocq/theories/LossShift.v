(** * LossShift: moving one bias of the last layer moves one output and nothing else of the objective. *)
From Coq Require Import List Bool Arith ZArith Lia String QArith Qcanon Reals Lra.
From Verif Require Import Base Names Digraph SmModel QcX NetModel NotearsModel NotearsProofs AcycModel AcycLink
  TorchModel TorchSpec TorchProofs SklModel LossModel.
Import ListNotations.
Local Open Scope list_scope.
Local Open Scope nat_scope.

(** The vectors differ in one place. *)
Definition moved (p : nat) (q : Qc) (v v' : list Qc) : Prop :=
  (forall k, k <> p -> nth k v' 0%Qc = nth k v 0%Qc) /\ nth p v' 0%Qc = (nth p v 0 + q)%Qc.

Definition layers_size (d : nat) (ub : bool) (ls : list (nat * nat)) : nat := fold_right Nat.add 0 (map (n_layer d ub) ls).
Definition ends_in_one (ls : list (nat * nat)) : Prop := ls <> [] /\ snd (last ls (0, 0)) = 1.

Lemma layers_bound d ls : ends_in_one ls -> d <= layers_size d true ls.
Proof.
  intros [N L]. destruct (exists_last N) as (l & [a b] & ->). rewrite last_last in L. cbn in L. subst b. unfold layers_size. rewrite map_app, fold_right_app. cbn [map fold_right].
  assert (d <= n_layer d true (a, 1) + 0) by (unfold n_layer, n_bias; cbn [fst snd]; lia).
  induction l as [|x l IH]; cbn [map fold_right]; [auto|]. etransitivity; [apply IH; intros Q; destruct l; discriminate|]. lia.
Qed.

Lemma idx_bound d j m1 m i (Hj : j < d) (Hm : m < m1) (Hi : i < d) : (j * m1 + m) * d + i < d * m1 * d.
Proof.
  assert (j * m1 + m < d * m1) by nia. nia.
Qed.
Lemma idx_bound' d j f a s b (Hj : j < d) (Ha : a < f) (Hb : b < s) : (j * f + a) * s + b < d * f * s.
Proof. assert (j * f + a < d * f) by nia. nia. Qed.

Lemma Qsum_in {A} (f g : A -> Qc) l : (forall x, In x l -> f x = g x) -> Qsum f l = Qsum g l.
Proof. intros H. induction l as [|x l IH]; auto. rewrite !Qsum_cons. rewrite H by (left; auto). rewrite IH; auto. intros; apply H; right; auto. Qed.

Lemma local_same d off io v v' x j p q : moved p q v v' -> j < d -> off + n_layer d true io <= p -> local_units d true off io v' x j = local_units d true off io v x j.
Proof.
  intros [M _] Hj Hp. unfold local_units. apply map_ext_in. intros b Hb. apply in_seq in Hb. unfold n_layer, n_bias in Hp. f_equal.
  - apply Qsum_in. intros a Ha. apply in_seq in Ha. rewrite M; auto. pose proof (idx_bound' d j (fst io) a (snd io) b). lia.
  - apply M. assert (j * snd io + b < d * snd io) by nia. lia.
Qed.

Lemma layers_moved act d ls : forall off v v' x j j0 q, ends_in_one ls -> moved (off + layers_size d true ls - d + j0) q v v' -> j < d -> j0 < d ->
  run_layers act d true off ls v' x j = map (fun u => if j =? j0 then (u + q)%Qc else u) (run_layers act d true off ls v x j).
Proof.
  induction ls as [|io ls IH]; intros off v v' x j j0 q En M Hj Hj0; [destruct En; congruence|]. cbn [run_layers].
  destruct ls as [|io' ls].
  - destruct En as [_ L]. cbn in L. unfold local_units. cbn [run_layers]. rewrite map_map. apply map_ext_in. intros b Hb. apply in_seq in Hb. rewrite L in Hb. assert (b = 0) by lia. subst b.
    unfold layers_size in M. cbn [map fold_right] in M. unfold n_layer, n_bias in M. rewrite L in M. rewrite L. destruct M as [M1 M2].
    assert (P : off + (d * fst io * 1 + d * 1 + 0) - d + j0 = off + d * fst io * 1 + j0 * 1 + 0) by lia.
    assert (Q : Qsum (fun a => (nth a (act (fst io) x) 0 * nth (off + (j * fst io + a) * 1 + 0) v' 0)%Qc) (seq 0 (fst io)) =
                Qsum (fun a => (nth a (act (fst io) x) 0 * nth (off + (j * fst io + a) * 1 + 0) v 0)%Qc) (seq 0 (fst io))).
    { apply Qsum_in. intros a Ha. apply in_seq in Ha. rewrite M1; auto. assert (j * fst io + a < d * fst io) by nia. lia. }
    rewrite Q. destruct (Nat.eqb_spec j j0) as [->|Nj].
    + rewrite <- P, M2. ring.
    + rewrite (M1 (off + d * fst io * 1 + j * 1 + 0)) by lia. auto.
  - assert (En' : ends_in_one (io' :: ls)) by (destruct En as [_ L]; split; [congruence|exact L]).
    assert (Sz : layers_size d true (io :: io' :: ls) = n_layer d true io + layers_size d true (io' :: ls)) by reflexivity.
    pose proof (layers_bound d (io' :: ls) En') as Bd.
    rewrite (local_same d off io v v' (act (fst io) x) j _ q M Hj) by lia.
    apply IH; auto. replace (off + n_layer d true io + layers_size d true (io' :: ls) - d + j0) with (off + layers_size d true (io :: io' :: ls) - d + j0) by lia. auto.
Qed.

(** The networks that the learner builds *)
Definition network (d : nat) (dims : list nat) : Prop := exists hu, hu <> [] /\ dims = net_dims d hu.

Lemma last_cons {A} (a : A) l d : l <> [] -> last (a :: l) d = last l d.
Proof. destruct l; auto. congruence. Qed.
Lemma combine_last {A} (l : list A) : forall a x d, snd (last (combine (a :: l) (l ++ [x])) d) = x.
Proof.
  induction l as [|b l IH]; intros a x d; [reflexivity|]. change (combine (a :: b :: l) ((b :: l) ++ [x])) with ((a, b) :: combine (b :: l) (l ++ [x])).
  rewrite last_cons; [apply IH|]. destruct l; discriminate.
Qed.

Lemma network_cases d dims : network d dims -> nth 0 dims 0 = d /\ (dims = [d; 1] \/ ends_in_one (net_layers dims)).
Proof.
  intros ([|h hu] & N & ->); [congruence|]. unfold net_dims. cbn [hd]. destruct (h =? 0); cbn [nth]; split; auto. right. unfold ends_in_one, net_layers. cbn [tl].
  change ((h :: hu) ++ [1]) with (h :: (hu ++ [1])). cbn [tl]. change (removelast (h :: hu ++ [1])) with (removelast ((h :: hu) ++ [1])). rewrite removelast_last. split.
  - destruct hu; cbn; congruence.
  - apply (combine_last hu).
Qed.

(** The place of the last bias of output [j] *)
Definition bias_place (d : nat) (dims : list nat) (j : nat) : nat := n_params d true dims - d + j.

Lemma forward_moved act d dims v v' x j0 q : network d dims -> j0 < d -> moved (bias_place d dims j0) q v v' ->
  forward act true dims v' x = map (fun j => let u := nth j (forward act true dims v x) 0%Qc in if j =? j0 then (u + q)%Qc else u) (seq 0 d).
Proof.
  intros Nw Hj0 M. destruct (network_cases d dims Nw) as [E0 Cs]. unfold forward. cbv zeta. rewrite E0. apply map_ext_in. intros j Hj. apply in_seq in Hj.
  set (F := fun j => nth 0 (run_layers act d true (n_weights d (nth 1 dims 0) + n_bias true (d * nth 1 dims 0)) (net_layers dims) v (dag_units d (nth 1 dims 0) true v x j) j) 0%Qc).
  assert (Fj : nth j (map F (seq 0 d)) 0%Qc = F j) by (rewrite (nth_indep _ 0%Qc (F 0)) by (rewrite map_length, seq_length; lia); rewrite map_nth, seq_nth by lia; auto).
  rewrite Fj. unfold F. clear F Fj. unfold bias_place, n_params in M. destruct Cs as [->|En].
  - cbn [nth net_layers tl removelast combine run_layers map fold_right] in *. unfold n_weights, n_bias in M. unfold dag_units. cbn [seq map nth].
    destruct M as [M1 M2]. replace (d * 1 * d + d * 1 + 0 - d + j0) with (n_weights d 1 + (j0 * 1 + 0)) in * by (unfold n_weights; lia).
    assert (Q : Qsum (fun i => (dag_w d 1 v' j 0 i * nth i x 0)%Qc) (seq 0 d) = Qsum (fun i => (dag_w d 1 v j 0 i * nth i x 0)%Qc) (seq 0 d)).
    { apply Qsum_in. intros i Hi. apply in_seq in Hi. unfold dag_w. rewrite M1; auto. unfold n_weights. pose proof (idx_bound d j 1 0 i). lia. }
    rewrite Q. unfold dag_b. destruct (Nat.eqb_spec j j0) as [->|Nj]; [rewrite M2; ring|]. rewrite (M1 (n_weights d 1 + (j * 1 + 0))) by lia. auto.
  - set (m1 := nth 1 dims 0) in *. set (off := n_weights d m1 + n_bias true (d * m1)) in *. pose proof (layers_bound d _ En) as Bd.
    assert (Du : dag_units d m1 true v' x j = dag_units d m1 true v x j).
    { destruct M as [M1 _]. unfold dag_units. apply map_ext_in. intros m Hm. apply in_seq in Hm. fold (layers_size d true (net_layers dims)) in M1. f_equal.
      - apply Qsum_in. intros i Hi. apply in_seq in Hi. unfold dag_w. rewrite M1; auto. pose proof (idx_bound d j m1 m i). unfold off, n_weights, n_bias. lia.
      - unfold dag_b. apply M1. assert (j * m1 + m < d * m1) by nia. unfold off, n_bias. lia. }
    rewrite Du, (layers_moved act d (net_layers dims) off v v' _ j j0 q En) by (auto; lia).
    destruct (run_layers act d true off (net_layers dims) v (dag_units d m1 true v x j) j) as [|u us] eqn:Er; [|reflexivity].
    exfalso. assert (G : forall ls off x, ends_in_one ls -> List.length (run_layers act d true off ls v x j) = 1).
    { clear. induction ls as [|io ls IH]; intros off x En; [destruct En; congruence|]. cbn [run_layers]. destruct ls as [|io' ls].
      - destruct En as [_ L]. cbn in L. cbn [run_layers]. unfold local_units. rewrite map_length, seq_length. auto.
      - apply IH. destruct En as [_ L]. split; [congruence|exact L]. }
    specialize (G _ off (dag_units d m1 true v x j) En). rewrite Er in G. discriminate.
Qed.

Lemma weights_below d ls : forall off k, In k (layer_weights d true off ls) -> k < off + layers_size d true ls.
Proof.
  induction ls as [|io ls IH]; intros off k H; [destruct H|]. cbn [layer_weights] in H. unfold layers_size. cbn [map fold_right]. fold (layers_size d true ls).
  apply in_app_iff in H. destruct H as [H|H]; [apply in_seq in H; unfold n_layer; lia|]. specialize (IH _ _ H). lia.
Qed.
Lemma weights_not_bias d ls : forall off k, ends_in_one ls -> In k (layer_weights d true off ls) -> k < off + layers_size d true ls - d.
Proof.
  induction ls as [|io ls IH]; intros off k En H; [destruct H|]. cbn [layer_weights] in H. unfold layers_size. cbn [map fold_right]. fold (layers_size d true ls).
  destruct ls as [|io' ls].
  - destruct En as [_ L]. cbn in L. cbn [layer_weights] in H. rewrite app_nil_r in H. apply in_seq in H. unfold n_layer, n_bias, layers_size. cbn. rewrite L in *. lia.
  - assert (En' : ends_in_one (io' :: ls)) by (destruct En as [_ L]; split; [congruence|exact L]). pose proof (layers_bound d _ En').
    apply in_app_iff in H. destruct H as [H|H]; [apply in_seq in H; unfold n_layer at 1; lia|]. specialize (IH _ _ En' H). lia.
Qed.

Lemma weights_before_bias d dims : network d dims -> n_weights d (nth 1 dims 0) <= n_params d true dims - d /\
  forall k, In k (layer_weights d true (n_weights d (nth 1 dims 0) + n_bias true (d * nth 1 dims 0)) (net_layers dims)) -> k < n_params d true dims - d.
Proof.
  intros Nw. destruct (network_cases d dims Nw) as [E0 [->|En]].
  - cbn. unfold n_params, n_weights, n_bias. cbn. split; [lia|tauto].
  - unfold n_params. fold (layers_size d true (net_layers dims)). pose proof (layers_bound d _ En). split; [unfold n_bias; lia|]. intros k Hk. apply (weights_not_bias d _ _ k En Hk).
Qed.

Lemma l1_moved d dims v v' j q : network d dims -> moved (bias_place d dims j) q v v' -> l1_reg d (nth 1 dims 0) v' = l1_reg d (nth 1 dims 0) v.
Proof.
  intros Nw [M _]. destruct (weights_before_bias d dims Nw) as [W _]. unfold l1_reg. do 2 f_equal. apply map_ext_in. intros k Hk. apply in_seq in Hk. rewrite M; auto. unfold bias_place. lia.
Qed.
Lemma l2_moved d dims v v' j q : network d dims -> moved (bias_place d dims j) q v v' -> l2_reg d true dims v' = l2_reg d true dims v.
Proof.
  intros Nw [M _]. destruct (weights_before_bias d dims Nw) as [W W2]. unfold l2_reg. do 3 f_equal. apply map_ext_in. intros k Hk. rewrite M; auto. unfold bias_place.
  apply in_app_iff in Hk. destruct Hk as [Hk|Hk]; [apply in_seq in Hk; lia|]. specialize (W2 k Hk). lia.
Qed.

(** The penalty *)
Definition same_below (d : nat) (M M' : qmat) : Prop := forall i j, i < d -> j < d -> M i j = M' i j.

Lemma modify_same d dt M M' : Forall (fun j => j < d) (dt_columns dt) -> same_below d M M' -> same_below d (modify_h dt M) (modify_h dt M').
Proof.
  intros B H. unfold modify_h, dt_columns in *. destruct (dt_kind dt); auto. destruct (dt_group dt) as [|o ex]; auto. inversion B as [|? ? Bo Be]; subst. rewrite Forall_forall in Be.
  assert (Hr : same_below d (add_rows o ex M) (add_rows o ex M')).
  { intros i j Hi Hj. unfold add_rows. destruct (i =? o); [|apply H; auto]. rewrite (H o j) by auto. f_equal. apply Qsum_in. intros e He. apply H; auto. }
  intros i j Hi Hj. unfold add_cols. destruct (j =? o); [|apply Hr; auto]. rewrite (Hr i o) by auto. f_equal. apply Qsum_in. intros e He. apply Hr; auto.
Qed.
Lemma h_same d m1 dts v v' : (forall dt, In dt dts -> Forall (fun j => j < d) (dt_columns dt)) -> (forall k, k < n_weights d m1 -> nth k v' 0%Qc = nth k v 0%Qc) ->
  same_below d (h_matrix dts d m1 v') (h_matrix dts d m1 v).
Proof.
  intros B H. unfold h_matrix. assert (S0 : same_below d (square_mat d m1 v') (square_mat d m1 v)).
  { intros i j Hi Hj. unfold square_mat. apply Qsum_in. intros m Hm. apply in_seq in Hm. unfold dag_w. rewrite H; auto. unfold n_weights. apply idx_bound; lia. }
  revert S0. generalize (square_mat d m1 v') (square_mat d m1 v). induction dts as [|dt l IH]; intros M M' S0; auto. cbn [fold_left]. apply IH; [intros; apply B; right; auto|].
  apply modify_same; auto. apply B. left. auto.
Qed.
