(** * LossBias: what the best bias means, and objectives without a minimum. *)
From Coquelicot Require Import Coquelicot.
From Coq Require Import List Bool Arith ZArith Lia String QArith Qcanon Qround Permutation Reals Lra.
From Verif Require Import Base Names Digraph SmModel QcX NetModel NotearsModel NotearsProofs AcycModel AcycProofs AcycThms ObjProofs ObjGrad AcycLink
  TorchModel TorchSpec TorchProofs TorchTotal TorchAcyc SklModel OrdProofs SklPredict LossModel LossProofs LossSpec LossNll LossThms LossShift LossFunc.
Import ListNotations.
Local Open Scope list_scope.
Local Open Scope nat_scope.

Lemma nth_seq {A} (l : list A) d : map (fun i => nth i l d) (seq 0 (List.length l)) = l.
Proof. apply (nth_ext _ _ d d); rewrite map_length, seq_length; auto. intros n H. rewrite (nth_indep _ d (nth 0 l d)) by (rewrite map_length, seq_length; auto). rewrite (map_nth (fun i => nth i l d)), seq_nth by auto. auto. Qed.

(** ** Derivatives of the losses of a row *)
Lemma cont_derive (z x : R) : is_derive (fun q : R => 0.5 * (z + q - x) ^ 2)%R 0%R (z - x)%R.
Proof. auto_derive; auto. lra. Qed.
Lemma poiss_derive (z y : R) : is_derive (fun q : R => poisson_nll (z + q)%R y) 0%R (exp z - y)%R.
Proof. unfold poisson_nll. auto_derive; auto. rewrite Rplus_0_r. lra. Qed.
Lemma bin_derive (z y : R) : is_derive (fun q : R => bce_logits (z + q)%R y) 0%R (sigmoid z - y)%R.
Proof.
  apply (derive_ext (fun q => (1 - y) * (z + q) + ln (1 + exp (- (z + q))))%R); [intros q; symmetry; apply bce_simple|].
  auto_derive; [pose proof (exp_pos (- (z + 0))); lra|]. rewrite Rplus_0_r. unfold sigmoid. pose proof (exp_pos (- z)). field. lra.
Qed.
Lemma cat_derive (a e A B : R) : (0 <= A)%R -> (0 < B)%R -> is_derive (fun q : R => - (a + e * q) + ln (A + B * exp q))%R 0%R (B / (A + B) - e)%R.
Proof. intros HA HB. auto_derive; rewrite exp_0; [lra|]. field. lra. Qed.

Lemma derive_average {A} (f : A -> R -> R) (f' : A -> R) (l : list A) (x : R) : (forall a, In a l -> is_derive (f a) x (f' a)) ->
  is_derive (fun y => average (map (fun a => f a y) l)) x (average (map f' l)).
Proof.
  intros H. pose proof (derive_lsum f f' l x H) as D. assert (G : forall (g : A -> R), average (map g l) = (/ INR (List.length l) * lsum g l)%R).
  { intros g. unfold average, Rdiv. rewrite map_length, Rmult_comm. f_equal. induction l as [|a m IH]; cbn; auto. f_equal. apply IH; [intros; apply H; right; auto|].
    apply (derive_lsum f f' m x). intros; apply H; right; auto. }
  apply (derive_ext (fun y => / INR (List.length l) * lsum (fun a => f a y) l)%R); [intros y; symmetry; apply (G (fun a => f a y))|].
  rewrite G. apply derive_scal. exact D.
Qed.

(** A minimum over the rational points has derivative 0. *)
Lemma rational_minimum (F : R -> R) (D : R) : is_derive F 0%R D -> (forall q : Qc, F 0 <= F (realq q))%R -> D = 0%R.
Proof.
  intros H M. apply is_derive_Reals in H. destruct (Req_dec D 0) as [|ND]; auto. exfalso.
  destruct (H (Rabs D / 2)%R) as (del & Hd); [apply Rabs_pos_lt in ND; lra|].
  destruct (archimed_cor1 del (cond_pos del)) as (n & Hn & Pn).
  assert (Pi : (0 < / INR n)%R) by (apply Rinv_0_lt_compat, lt_0_INR; lia).
  assert (Ex : exists q, realq q = (if Rlt_dec 0 D then - / INR n else / INR n)%R).
  { assert (Nz : qnat n <> 0%Qc) by (intros Q; apply (f_equal realq) in Q; rewrite realq_qnat, realq_0 in Q; apply (not_INR n 0) in Q; auto; lia).
    destruct (Rlt_dec 0 D); [exists (- / qnat n)%Qc; rewrite realq_opp|exists (/ qnat n)%Qc]; rewrite realq_inv by auto; rewrite realq_qnat; auto. }
  destruct Ex as (q & Eq). specialize (M q). set (h := realq q) in *.
  assert (Hh : h <> 0%R) by (rewrite Eq; destruct (Rlt_dec 0 D); lra).
  assert (Ha : (Rabs h < del)%R) by (rewrite Eq; destruct (Rlt_dec 0 D); rewrite ?Rabs_Ropp, Rabs_right by lra; auto).
  specialize (Hd h Hh Ha). rewrite Rplus_0_l in Hd. set (s := ((F h - F 0) / h)%R) in *.
  assert (Es : (F h - F 0 = s * h)%R) by (unfold s; field; auto).
  destruct (Rlt_dec 0 D) as [P|P].
  - rewrite (Rabs_right D) in Hd by lra. apply Rabs_def2 in Hd. assert (s * h < 0)%R by (rewrite Eq; nra). lra.
  - assert (Dn : (D < 0)%R) by lra. rewrite (Rabs_left D) in Hd by lra. apply Rabs_def2 in Hd. assert (s * h < 0)%R by (rewrite Eq; nra). lra.
Qed.

(** What is observed of a value: itself, or whether it is the category number [p]. *)
Definition observed (k : kind) (col : list Qc) (p : nat) (x : Qc) : R :=
  match k with Cat => if place col x =? p then 1%R else 0%R | _ => realq x end.

(** A list with [q] added at position [p] *)
Definition add_at (p : nat) (q : R) (l : list R) : list R := map (fun i => if i =? p then (nth i l 0 + q)%R else nth i l 0%R) (seq 0 (List.length l)).

Lemma pick_bump d g p q z : NoDup g -> Forall (fun j => j < d) g -> p < List.length g -> pick g (bump d (nth p g 0) q z) = add_at p q (pick g z).
Proof.
  intros N B Hp. unfold add_at, pick. rewrite map_length. rewrite <- (nth_seq g 0) at 1. rewrite map_map. apply map_ext_in. intros i Hi. apply in_seq in Hi.
  rewrite bump_nth by (rewrite Forall_forall in B; apply B, nth_In; lia).
  rewrite (nth_indep (map (fun j => nth j z 0%R) g) 0%R (nth 0 z 0%R)) by (rewrite map_length; lia). rewrite (map_nth (fun j => nth j z 0%R)).
  destruct (Nat.eqb_spec i p) as [->|Ni]; [rewrite Nat.eqb_refl; auto|]. destruct (Nat.eqb_spec (nth i g 0) (nth p g 0)) as [Q|]; auto.
  exfalso. apply Ni. apply (proj1 (NoDup_nth g 0) N); auto. lia.
Qed.

Lemma add_at_nth p q l c : c < List.length l -> nth c (add_at p q l) 0%R = (nth c l 0 + (if c =? p then 1 else 0) * q)%R.
Proof. intros H. unfold add_at. rewrite (nth_map_seq_R (fun i => if i =? p then (nth i l 0 + q)%R else nth i l 0%R)) by auto. destruct (c =? p); lra. Qed.

Lemma add_at_exp p q l : p < List.length l -> SklModel.rsum (map exp (add_at p q l)) = (SklModel.rsum (map exp l) - exp (nth p l 0) + exp (nth p l 0) * exp q)%R.
Proof.
  intros H. assert (G : forall n s, SklModel.rsum (map exp (map (fun i => if i =? p then (nth i l 0 + q)%R else nth i l 0%R) (seq s n))) =
    (SklModel.rsum (map exp (map (fun i => nth i l 0%R) (seq s n))) + (if (s <=? p) && (p <? s + n) then exp (nth p l 0) * exp q - exp (nth p l 0) else 0))%R).
  { unfold SklModel.rsum. induction n as [|n IH]; intros s; cbn [seq map fold_right].
    - destruct (Nat.leb_spec s p), (Nat.ltb_spec p (s + 0)); cbn; lra || lia.
    - rewrite IH. destruct (Nat.eqb_spec s p) as [->|Ns].
      + rewrite exp_plus. destruct (Nat.leb_spec (S p) p), (Nat.ltb_spec p (S p + n)), (Nat.leb_spec p p), (Nat.ltb_spec p (p + S n)); cbn; lra || lia.
      + destruct (Nat.leb_spec (S s) p), (Nat.ltb_spec p (S s + n)), (Nat.leb_spec s p), (Nat.ltb_spec p (s + S n)); cbn; lra || lia. }
  unfold add_at. rewrite G. rewrite (nth_seq l 0%R). destruct (Nat.leb_spec 0 p), (Nat.ltb_spec p (0 + List.length l)); cbn; lra || lia.
Qed.

Section Row.
  Context (dt : dtype) (d p : nat) (x : Qc) (z : list R).
  Context (K : dt_kind dt <> Ord) (Nd : NoDup (dt_columns dt)) (Bd : Forall (fun j => j < d) (dt_columns dt)) (Hp : p < List.length (dt_columns dt)).
  Context (Hc : dt_kind dt = Cat -> position (dt_cats dt) x < List.length (dt_group dt)).

  Lemma row_derive : is_derive (fun q : R => row_loss dt x (bump d (nth p (dt_columns dt) 0) q z)) 0%R
    (nth p (link (dt_kind dt) (pick (dt_columns dt) z)) 0 - match dt_kind dt with Cat => if position (dt_cats dt) x =? p then 1 else 0 | _ => realq x end)%R.
  Proof.
    pose proof (fun q => pick_bump d (dt_columns dt) p q z Nd Bd Hp) as Pb.
    assert (One : dt_kind dt <> Cat -> p = 0 /\ dt_columns dt = [dt_idx dt] /\ forall q, nth (dt_idx dt) (bump d (nth p (dt_columns dt) 0) q z) 0%R = (nth (dt_idx dt) z 0 + q)%R).
    { intros Kc. assert (Dc : dt_columns dt = [dt_idx dt]) by (unfold dt_columns; destruct (dt_kind dt); congruence || auto). rewrite Dc in Hp. cbn in Hp.
      assert (p = 0) by lia. split; auto. split; auto. intros q. rewrite Dc. subst p. cbn [nth]. rewrite bump_nth; [rewrite Nat.eqb_refl; auto|]. rewrite Dc in Bd. inversion Bd; auto. }
    unfold row_loss. destruct (dt_kind dt) eqn:Ek; try congruence.
    - destruct One as (-> & Dc & On); [congruence|]. apply (derive_ext (fun q => bce_logits (nth (dt_idx dt) z 0 + q) (realq x))%R); [intros q; rewrite On; auto|].
      rewrite Dc. cbn [pick map link nth]. apply bin_derive.
    - assert (Dc : dt_columns dt = dt_group dt) by (unfold dt_columns; rewrite Ek; auto). rewrite Dc in *. specialize (Hc eq_refl). set (c := position (dt_cats dt) x) in *.
      set (l := pick (dt_group dt) z) in *. assert (Ll : List.length l = List.length (dt_group dt)) by (apply map_length).
      assert (Hpl : p < List.length l) by (rewrite Ll; exact Hp). pose proof (member_le l (nth p l 0%R) (nth_In _ _ Hpl)) as Me.
      apply (derive_ext (fun q => - (nth c l 0 + (if c =? p then 1 else 0) * q) + ln ((SklModel.rsum (map exp l) - exp (nth p l 0)) + exp (nth p l 0) * exp q))%R).
      { intros q. rewrite Pb. rewrite add_at_nth by (rewrite Ll; auto). rewrite add_at_exp by (rewrite Ll; auto). auto. }
      eapply derive_eq; [apply cat_derive; [lra|apply exp_pos]|]. f_equal. cbn [link]. unfold softmax.
      rewrite (nth_indep (map (fun u => (exp u / SklModel.rsum (map exp l))%R) l) 0%R (exp 0 / SklModel.rsum (map exp l))%R) by (rewrite map_length, Ll; auto). rewrite (map_nth (fun u => (exp u / SklModel.rsum (map exp l))%R)). f_equal. lra.
    - destruct One as (-> & Dc & On); [congruence|]. apply (derive_ext (fun q => 0.5 * (nth (dt_idx dt) z 0 + q - realq x) ^ 2)%R); [intros q; rewrite On; auto|].
      rewrite Dc. cbn [pick map link nth]. apply cont_derive.
    - destruct One as (-> & Dc & On); [congruence|]. apply (derive_ext (fun q => poisson_nll (nth (dt_idx dt) z 0 + q) (realq x))%R); [intros q; rewrite On; auto|].
      rewrite Dc. cbn [pick map link nth]. apply poiss_derive.
  Qed.
End Row.

Lemma bump_zero d j z : List.length z = d -> bump d j 0 z = z.
Proof. intros <-. transitivity (map (fun i => nth i z 0%R) (seq 0 (List.length z))); [|apply nth_seq]. unfold bump. apply map_ext. intros i. destruct (i =? j); lra. Qed.

Lemma set_moved p q v : p < List.length v -> moved p q v (set_nth p (nth p v 0 + q)%Qc v).
Proof. intros H. split; [intros k Nk; apply set_nth_other; auto|apply set_nth_same; auto]. Qed.

Section Bias.
  Context (ks : list (nat * kind)) (X : data) (t : tabu Z) (dts : list dtype) (X' : data) (t' : tabu Z).
  Context (Rc : rect X) (N : NoDup (map fst ks)) (B : forall i, In i (map fst ks) -> i < width X) (E : prepare ks X t = Ok (dts, X', t')) (Nr : rows X <> []).
  Context (odds : nat -> list R) (act : activation) (dims : list nat) (lasso ridge rho alpha : R).
  Context (Nw : network (width X') dims).
  Context (Od : forall dt, In dt dts -> dt_kind dt = Ord -> odds (dt_idx dt) = log_cum_odds (column (dt_idx dt) X)).
  Let d := width X'.
  Let obj := objective dts X' odds act dims lasso ridge rho alpha true.
  Let out := outputs X' act dims true.

  Lemma type_rows dt Z : In dt dts -> dt_kind dt <> Ord -> List.length Z = List.length (rows X) ->
    dist_loss odds dt X' Z = Ok (average (map (fun p => row_loss dt (nth (dt_idx dt) (fst p) 0%Qc) (snd p)) (combine (rows X) Z))).
  Proof.
    intros I K Lz. apply (loss_rows odds dt X X' Z Lz (cats_of ks X t dts X' t' Rc N B E dt I) (prepare_rows ks X t dts X' t' Rc N B E dt I) (Od dt I)); auto.
    intros Kc. apply (group_length ks X t dts X' t' Rc N B E dt I Kc). destruct (rows X); [congruence|discriminate].
  Qed.

  Lemma type_bump dt Z j q : In dt dts -> dt_kind dt <> Ord -> List.length Z = List.length (rows X) ->
    dist_loss odds dt X' (map (bump d j q) Z) = Ok (average (map (fun p => row_loss dt (nth (dt_idx dt) (fst p) 0%Qc) (bump d j q (snd p))) (combine (rows X) Z))).
  Proof.
    intros I K Lz. rewrite type_rows; auto; [|rewrite map_length; auto]. do 2 f_equal.
    apply (combine_ext_r (fun z => z) (bump d j q) (fun r z => row_loss dt (nth (dt_idx dt) r 0%Qc) z)). apply map_id.
  Qed.

  (** The best bias of an output makes the mean of what is reported the mean of what is observed. *)
  Lemma balanced dt p v f M : In dt dts -> dt_kind dt <> Ord -> p < List.length (dt_columns dt) ->
    n_params d true dims <= List.length v -> obj v = Ok f ->
    (forall v' q f', moved (bias_place d dims (nth p (dt_columns dt) 0)) q v v' -> obj v' = Ok f' -> (f <= f')%R) ->
    inverse_link odds dt (mkRm d (out v)) = Ok M ->
    average (map (fun m => nth p (shown dt m) 0%R) (r_rows M)) = average (map (observed (dt_kind dt) (column (dt_idx dt) X) p) (column (dt_idx dt) X)).
  Proof.
    intros I K Hp Lv Ef Mn El. set (j0 := nth p (dt_columns dt) 0) in *.
    assert (Ij : In j0 (dt_columns dt)) by (apply nth_In; auto).
    assert (Hj : j0 < d) by (apply (columns_bound ks X t dts X' t' Rc N B E dt); auto).
    assert (Bd : Forall (fun j => j < d) (dt_columns dt)) by (apply Forall_forall; intros j; apply (columns_bound ks X t dts X' t' Rc N B E dt); auto).
    destruct (outputs_wf ks X t dts X' t' Rc N B E act dims Nw true v) as [Wz Lz]. fold out in Wz, Lz.
    set (F := fun q => average (map (fun pz => row_loss dt (nth (dt_idx dt) (fst pz) 0%Qc) (bump d j0 q (snd pz))) (combine (rows X) (out v)))).
    assert (Gl : dt_kind dt = Cat -> List.length (dt_group dt) = List.length (dt_cats dt)).
    { intros Kc. apply (group_length ks X t dts X' t' Rc N B E dt I Kc). destruct (rows X); [congruence|discriminate]. }
    assert (Ic : forall pz, In pz (combine (rows X) (out v)) -> In (nth (dt_idx dt) (fst pz) 0%Qc) (column (dt_idx dt) X)).
    { intros [r z] Hz. apply in_map_iff. exists r. split; auto. apply (in_combine_l _ _ _ _ Hz). }
    assert (Cs := cats_of ks X t dts X' t' Rc N B E dt I).
    set (g := fun pz : list Qc * list R => (nth p (link (dt_kind dt) (pick (dt_columns dt) (snd pz))) 0 - observed (dt_kind dt) (column (dt_idx dt) X) p (nth (dt_idx dt) (fst pz) 0%Qc))%R).
    assert (D : is_derive F 0%R (average (map g (combine (rows X) (out v))))).
    { unfold F. apply derive_average. intros pz Hz. unfold g. specialize (Ic pz Hz). set (x := nth (dt_idx dt) (fst pz) 0%Qc) in *.
      eapply derive_eq; [apply row_derive; auto|].
      - apply (columns_nodup ks X t dts X' t' Rc N B E dt I).
      - intros Kc. rewrite (Gl Kc). apply position_lt. rewrite Cs by auto. apply categories_In. auto.
      - f_equal. unfold observed. destruct (dt_kind dt) eqn:Ek; auto. rewrite Cs by auto. rewrite position_rank by auto. auto. }
    assert (Mi : forall q : Qc, (F 0 <= F (realq q))%R).
    { intros q. assert (Hb : bias_place d dims j0 < List.length v).
      { unfold bias_place. assert (d <= n_params d true dims); [|lia]. destruct (network_cases d dims Nw) as [_ [->|En]].
        - unfold n_params, n_bias. cbn. lia.
        - unfold n_params. fold (layers_size d true (net_layers dims)). pose proof (layers_bound d _ En). lia. }
      set (v' := set_nth (bias_place d dims j0) (nth (bias_place d dims j0) v 0 + q)%Qc v).
      pose proof (set_moved _ q v Hb) as Mv. fold v' in Mv.
      destruct (objective_moved ks X t dts X' t' Rc N B E odds act dims lasso ridge rho alpha Nw Od v v' dt j0 q f (F (realq q)) I Ij Mv Ef) as (l & E1 & E2).
      - apply type_bump; auto.
      - fold out in E1. specialize (Mn v' q _ Mv E2). rewrite (type_rows dt (out v) I K Lz) in E1. injection E1 as E1.
        assert (F0 : F 0%R = l).
        { rewrite <- E1. unfold F. f_equal. apply map_ext_in. intros [r z] Hz. cbn [fst snd]. rewrite bump_zero; auto. rewrite Forall_forall in Wz. apply Wz. apply (in_combine_r _ _ _ _ Hz). }
        lra. }
    pose proof (rational_minimum F _ D Mi) as Z0.
    destruct (link_step odds dt (mkRm d (out v)) M K (good ks X t dts X' t' Rc N B E dt I) Wz El) as (_ & _ & F2). cbn [r_rows] in F2.
    pose proof (linked_shown dt (out v) (r_rows M) K F2) as Sh.
    assert (S1 : map (fun m => nth p (shown dt m) 0%R) (r_rows M) = map (fun z => nth p (link (dt_kind dt) (pick (dt_columns dt) z)) 0%R) (out v)).
    { apply (f_equal (map (fun l => nth p l 0%R))) in Sh. rewrite !map_map in Sh. exact Sh. }
    rewrite S1. unfold column at 2. rewrite map_map.
    assert (Sp : forall (a : list Qc -> R) (b : list R -> R) rs zs, List.length zs = List.length rs ->
      average (map (fun pz => b (snd pz) - a (fst pz))%R (combine rs zs)) = (average (map b zs) - average (map a rs))%R).
    { clear. intros a b rs zs L. unfold average. rewrite !map_length, combine_length, L, Nat.min_id. unfold Rdiv. rewrite <- Rmult_minus_distr_r. f_equal.
      revert zs L. induction rs as [|r rs IH]; intros [|z zs] L; cbn in *; try discriminate; [lra|]. rewrite IH by lia. lra. }
    unfold g in Z0. rewrite (Sp (fun r => observed (dt_kind dt) (column (dt_idx dt) X) p (nth (dt_idx dt) r 0%Qc)) (fun z => nth p (link (dt_kind dt) (pick (dt_columns dt) z)) 0%R)) in Z0 by auto. lra.
  Qed.

  Lemma place_inside v j : j < d -> n_params d true dims <= List.length (v : list Qc) -> bias_place d dims j < List.length v.
  Proof.
    intros Hj Lv. unfold bias_place. assert (d <= n_params d true dims); [|lia]. destruct (network_cases d dims Nw) as [_ [->|En]].
    - unfold n_params, n_bias. cbn. lia.
    - unfold n_params. fold (layers_size d true (net_layers dims)). pose proof (layers_bound d _ En). lia.
  Qed.

  Lemma average_linear {A} (a b : A -> R) (q : R) (l : list A) : average (map (fun x => a x + b x * q)%R l) = (average (map a l) + average (map b l) * q)%R.
  Proof. unfold average, Rdiv. rewrite !map_length. assert (G : fold_right Rplus 0%R (map (fun x => a x + b x * q)%R l) = (fold_right Rplus 0%R (map a l) + fold_right Rplus 0%R (map b l) * q)%R); [|rewrite G; ring].
    induction l as [|x l IH]; cbn [map fold_right]; [lra|]. rewrite IH. ring. Qed.

  Lemma average_one_minus (l : list R) : l <> [] -> average (map (fun y => 1 - y)%R l) = (1 - average l)%R.
  Proof. intros H. unfold average. rewrite map_length. assert (L : INR (List.length l) <> 0%R) by (apply not_0_INR; destruct l; [congruence|discriminate]).
    assert (G : fold_right Rplus 0%R (map (fun y => 1 - y)%R l) = (INR (List.length l) - fold_right Rplus 0 l)%R); [|rewrite G; field; auto].
    clear. induction l as [|x l IH]; cbn [map fold_right List.length]; [cbn; lra|]. rewrite IH, S_INR. ring. Qed.

  Lemma bce_up z y q : (0 <= q)%R -> (bce_logits (z + q) y <= ((1 - y) * z + ln (1 + exp (- z))) + (1 - y) * q)%R.
  Proof.
    intros H. rewrite bce_simple. assert (L : (ln (1 + exp (- (z + q))) <= ln (1 + exp (- z)))%R); [|lra].
    apply ln_le; [pose proof (exp_pos (- (z + q))); lra|]. apply Rplus_le_compat_l. destruct (Req_dec q 0) as [->|]; [rewrite Rplus_0_r; lra|]. left. apply exp_increasing. lra.
  Qed.
  Lemma bce_down z y q : (0 <= q)%R -> (bce_logits (z - q) y <= (- y * z + ln (1 + exp z)) + y * q)%R.
  Proof.
    intros H. rewrite bce_simple. assert (Eq : (1 + exp (- (z - q)) = exp (- (z - q)) * (1 + exp (z - q)))%R).
    { rewrite Rmult_plus_distr_l, <- exp_plus. replace (- (z - q) + (z - q))%R with 0%R by ring. rewrite exp_0. lra. }
    rewrite Eq, ln_mult; [|apply exp_pos|pose proof (exp_pos (z - q)); lra]. rewrite ln_exp.
    assert (L : (ln (1 + exp (z - q)) <= ln (1 + exp z))%R); [|lra].
    apply ln_le; [pose proof (exp_pos (z - q)); lra|]. apply Rplus_le_compat_l. destruct (Req_dec q 0) as [->|]; [rewrite Rminus_0_r; lra|]. left. apply exp_increasing. lra.
  Qed.

  Lemma far (slope C c : R) : (slope < 0)%R -> exists n : nat, (C + slope * INR n < c)%R.
  Proof.
    intros H. destruct (nfloor_ex (Rmax 0 ((C - c) / - slope)) (Rmax_l _ _)) as (m & _ & Hm). exists (m + 1).
    assert (Hn : ((C - c) / - slope < INR (m + 1))%R) by (rewrite plus_INR; cbn; pose proof (Rmax_r 0 ((C - c) / - slope)); lra). apply (Rmult_lt_compat_r (- slope)) in Hn; [|lra]. unfold Rdiv in Hn. rewrite Rmult_assoc, Rinv_l in Hn by lra. nra.
  Qed.

  (** A binary column whose mean is not between 0 and 1: raising (lowering) its bias makes the objective as small as one likes. *)
  Lemma unbounded dt v f : In dt dts -> dt_kind dt = Bin -> n_params d true dims <= List.length v -> obj v = Ok f ->
    let mean := average (map realq (column (dt_idx dt) X)) in (1 < mean \/ mean < 0)%R ->
    forall c, exists v' q f', moved (bias_place d dims (dt_idx dt)) q v v' /\ List.length v' = List.length v /\ obj v' = Ok f' /\ (f' < c)%R.
  Proof.
    intros I Ek Lv Ef mean Hm c. assert (K : dt_kind dt <> Ord) by congruence. set (j := dt_idx dt) in *.
    assert (Dc : dt_columns dt = [j]) by (unfold dt_columns; rewrite Ek; auto).
    assert (Ij : In j (dt_columns dt)) by (rewrite Dc; left; auto).
    assert (Hj : j < d) by (apply (columns_bound ks X t dts X' t' Rc N B E dt); auto).
    destruct (outputs_wf ks X t dts X' t' Rc N B E act dims Nw true v) as [Wz Lz]. fold out in Wz, Lz.
    assert (Mean : forall (h : R -> R), average (map (fun pz => h (realq (nth j (fst pz) 0%Qc))) (combine (rows X) (out v))) = average (map h (map realq (column j X)))).
    { intros h. f_equal. unfold column. rewrite !map_map. clear - Lz. revert Lz. generalize (out v). induction (rows X) as [|r rs IH]; intros [|z zs] L; cbn in *; try discriminate; auto. f_equal. auto. }
    assert (Step : forall q, exists l, dist_loss odds dt X' (out v) = Ok l /\ exists v', (moved (bias_place d dims j) q v v' /\ List.length v' = List.length v) /\
      obj v' = Ok (f - l + average (map (fun pz => bce_logits (nth j (snd pz) 0 + realq q) (realq (nth j (fst pz) 0%Qc))) (combine (rows X) (out v))))%R).
    { intros q. set (v' := set_nth (bias_place d dims j) (nth (bias_place d dims j) v 0 + q)%Qc v).
      pose proof (set_moved _ q v (place_inside v j Hj Lv)) as Mv. fold v' in Mv.
      destruct (objective_moved ks X t dts X' t' Rc N B E odds act dims lasso ridge rho alpha Nw Od v v' dt j q f _ I Ij Mv Ef (type_bump dt (out v) j (realq q) I K Lz)) as (l & E1 & E2).
      exists l. split; auto. exists v'. split; [split; auto; apply set_nth_length, place_inside; auto|]. unfold obj. rewrite E2. do 3 f_equal. apply map_ext. intros [r z]. cbn [fst snd]. unfold row_loss. rewrite Ek. fold j.
      rewrite bump_nth by auto. rewrite Nat.eqb_refl. auto. }
    destruct (Step 0%Qc) as (l & El & _).
    assert (Step' : forall q, exists v', (moved (bias_place d dims j) q v v' /\ List.length v' = List.length v) /\
      obj v' = Ok (f - l + average (map (fun pz => bce_logits (nth j (snd pz) 0 + realq q) (realq (nth j (fst pz) 0%Qc))) (combine (rows X) (out v))))%R).
    { intros q. destruct (Step q) as (l' & El' & H). assert (l' = l) by congruence. subst l'. exact H. }
    clear Step. destruct Hm as [Hm|Hm].
    - set (A := fun pz : list Qc * list R => ((1 - realq (nth j (fst pz) 0%Qc)) * nth j (snd pz) 0 + ln (1 + exp (- nth j (snd pz) 0)))%R).
      set (S := fun pz : list Qc * list R => (1 - realq (nth j (fst pz) 0%Qc))%R).
      assert (Es : average (map S (combine (rows X) (out v))) = (1 - mean)%R).
      { unfold S. rewrite (Mean (fun y => 1 - y)%R). unfold mean. rewrite <- (average_one_minus (map realq (column j X))); auto. unfold column. destruct (rows X); [congruence|discriminate]. }
      destruct (far (1 - mean) (f - l + average (map A (combine (rows X) (out v)))) c ltac:(lra)) as (n & Hn). destruct (Step' (qnat n)) as (v' & [Mv Lv'] & Eo). exists v', (qnat n). eexists. split; [exact Mv|]. split; [exact Lv'|]. split; [exact Eo|].
      rewrite realq_qnat. eapply Rle_lt_trans; [|exact Hn]. rewrite Rplus_assoc. apply Rplus_le_compat_l. rewrite <- Es, <- average_linear.
      apply (average_ge X (fun pz => A pz + S pz * INR n)%R (fun pz => bce_logits (nth j (snd pz) 0 + INR n)%R (realq (nth j (fst pz) 0%Qc))) (combine (rows X) (out v))). intros pz _. unfold A, S. apply bce_up. apply pos_INR.
    - set (A := fun pz : list Qc * list R => (- realq (nth j (fst pz) 0%Qc) * nth j (snd pz) 0 + ln (1 + exp (nth j (snd pz) 0)))%R).
      set (S := fun pz : list Qc * list R => (realq (nth j (fst pz) 0%Qc))%R).
      assert (Es : average (map S (combine (rows X) (out v))) = mean).
      { unfold S. rewrite (Mean (fun y => y)%R). rewrite map_id. auto. }
      destruct (far mean (f - l + average (map A (combine (rows X) (out v)))) c ltac:(lra)) as (n & Hn). destruct (Step' (- qnat n)%Qc) as (v' & [Mv Lv'] & Eo). exists v', (- qnat n)%Qc. eexists. split; [exact Mv|]. split; [exact Lv'|]. split; [exact Eo|].
      rewrite realq_opp, realq_qnat. eapply Rle_lt_trans; [|exact Hn]. rewrite Rplus_assoc. apply Rplus_le_compat_l. rewrite <- Es, <- average_linear.
      apply (average_ge X (fun pz => A pz + S pz * INR n)%R (fun pz => bce_logits (nth j (snd pz) 0 - INR n)%R (realq (nth j (fst pz) 0%Qc))) (combine (rows X) (out v))). intros pz _. unfold A, S. apply bce_down. apply pos_INR.
  Qed.
End Bias.
