(** * CausalDo: interventions against observations, over the specification of networks. *)
From Coq Require Import List Bool Arith ZArith Lia String QArith Qcanon Permutation.
From Verif Require Import Base QcX Digraph BbnModel SumOver BbnTables InferSpec InferProofs InferEngine InferMain CausalCore CausalThms.
Import ListNotations.
Local Open Scope Qc_scope.
Local Open Scope list_scope.

(** Every way to give each of the variables [ps] one of its states *)
Fixpoint settings (N : net) (ps : list string) : list (list (string * label)) :=
  match ps with
  | [] => [[]]
  | p :: rest => flat_map (fun x => map (cons (p, x)) (settings N rest)) (states_of N p)
  end.

Lemma settings_fst N ps : forall o, In o (settings N ps) -> map fst o = ps.
Proof.
  induction ps as [|p ps IH]; cbn; intros o H; [destruct H as [<-|[]]; auto|].
  apply in_flat_map in H. destruct H as (x & _ & H). apply in_map_iff in H. destruct H as (o' & <- & H). cbn. f_equal. auto.
Qed.
Lemma settings_states N ps : forall o, In o (settings N ps) -> forall v x, In (v, x) o -> In x (states_of N v).
Proof.
  induction ps as [|p ps IH]; cbn; intros o H v x I; [destruct H as [<-|[]]; destruct I|].
  apply in_flat_map in H. destruct H as (y & Hy & H). apply in_map_iff in H. destruct H as (o' & <- & H). destruct I as [[= <- <-]|I]; auto. eapply IH; eauto.
Qed.
Lemma settings_valid N ps o : NoDup ps -> incl ps (vars N) -> In o (settings N ps) -> valid_obs N o.
Proof.
  intros ND I H. split; [rewrite (settings_fst N ps o H); auto|]. intros v x Hv. split; [|apply (settings_states N ps o H v x Hv)].
  apply I. rewrite <- (settings_fst N ps o H). apply in_map_iff. exists (v, x). auto.
Qed.

(** ** Total probability *)
Section Total.
  Context (N : net) (SO : shape_ok N).

  Lemma world_state w v : In w (all_worlds N) -> In v (vars N) -> In (at_ w v) (states_of N v).
  Proof.
    pose proof (ok_vars N SO) as ND. clear SO. revert w. induction N as [|[u c] M IH]; intros w Hw Hv; [destruct Hv|].
    cbn [all_worlds] in Hw. apply in_flat_map in Hw. destruct Hw as (s & Hs & Hw). apply in_map_iff in Hw. destruct Hw as (w' & <- & Hw).
    unfold at_, states_of in *. cbn [find fst]. destruct (String.eqb_spec u v) as [->|Nu]; auto.
    inversion ND; subst. cbn in Hv. destruct Hv; [congruence|]. apply IH; auto.
  Qed.

  Lemma Pr_split (P : list (string * label) -> bool) v : In v (vars N) ->
    Pr N P = Qsum (fun s => Pr N (fun w => P w && label_eqb (at_ w v) s)%bool) (states_of N v).
  Proof.
    intros Hv. unfold Pr. rewrite (Qsum_ext _ (fun s => Qsum (fun w => if (P w && label_eqb (at_ w v) s)%bool then joint N w else 0) (all_worlds N))) by (intros; apply Qsum_filter).
    rewrite Qsum_filter. rewrite Qsum_swap. apply Qsum_ext. intros w Hw.
    assert (NDs : NoDup (states_of N v)).
    { apply in_map_iff in Hv. destruct Hv as ([u c] & <- & Hv). cbn [fst]. rewrite (states_of_In N u c (ok_vars N SO) Hv). apply (ok_states N SO u c Hv). }
    rewrite (Qsum_single _ _ (at_ w v) NDs (world_state w v Hw Hv)).
    - destruct (label_eqb_spec (at_ w v) (at_ w v)); [|congruence]. rewrite andb_true_r. auto.
    - intros y _ Ny. destruct (label_eqb_spec (at_ w v) y); [congruence|]. rewrite andb_false_r. auto.
  Qed.

  Lemma Pr_total ps : incl ps (vars N) -> forall P, Pr N P = Qsum (fun o => Pr N (fun w => P w && observed o w)%bool) (settings N ps).
  Proof.
    induction ps as [|p ps IH]; intros I P.
    - cbn. rewrite (Pr_ext N P (fun w => P w && true)%bool); [ring|]. intros; rewrite andb_true_r; auto.
    - cbn [settings]. rewrite Qsum_flat_map. rewrite (Pr_split P p) by (apply I; left; auto). apply Qsum_ext. intros x _.
      rewrite (IH (fun y Hy => I y (or_intror Hy))), Qsum_map. apply Qsum_ext. intros o _. apply Pr_ext. intros w _. cbn [observed forallb fst snd]. rewrite andb_assoc. reflexivity.
  Qed.
End Total.

(** ** One intervention *)
Section Do.
  Context (N : net) (v : string) (c : cpd) (d : list (label * Qc)).
  Context (SO : shape_ok N) (SO' : shape_ok (truncated N v d)) (I : In (v, c) N).

  Lemma truncated_factor a : jointf (truncated N v d) a * prob c (a v) (map a (parents c)) = jointf N a * weight_in d (a v).
  Proof.
    pose proof (ok_vars N SO) as ND. clear SO SO'. unfold jointf, truncated. rewrite Qprod_map.
    induction N as [|[u e] M IH]; [destruct I|]. cbn [Qprod fold_right] in *. fold (Qprod (factor_at a) M).
    fold (Qprod (fun x => factor_at a (if String.eqb (fst x) v then (fst x, fixed (snd x) d) else x)) M) in *.
    cbn [fst snd]. inversion ND as [|? ? Nu ND']; subst. destruct (String.eqb_spec u v) as [->|Nuv].
    - assert (e = c).
      { destruct I as [[= ->]|I']; auto. exfalso. apply Nu. apply in_map_iff. exists (v, c). auto. }
      subst e. rewrite (Qprod_ext _ (factor_at a) M).
      + unfold factor_at at 1 3. cbn [fst snd fixed prob parents]. ring.
      + intros [w e] Hw. cbn [fst]. destruct (String.eqb_spec w v) as [->|]; auto. exfalso. apply Nu. apply in_map_iff. exists (v, e). auto.
    - destruct I as [[= -> _]|I']; [congruence|]. specialize (IH I' ND'). fold (Qprod (factor_at a) M) in IH. rewrite <- Qcmult_assoc, IH. ring.
  Qed.

  (** An event that settles the variable and its parents *)
  Lemma truncated_event (P : assign -> bool) x ps : looks (fun u => In u (vars N)) P ->
    (forall a, P a = true -> a v = x /\ map a (parents c) = ps) ->
    Pr (truncated N v d) (fun w => P (at_ w)) * prob c x ps = Pr N (fun w => P (at_ w)) * weight_in d x.
  Proof.
    intros L H. set (a0 := fun _ : string => LInt 0). rewrite (Pr_mass N P a0 SO L).
    rewrite (Pr_mass (truncated N v d) P a0 SO') by (rewrite truncated_vars; auto).
    unfold mass. rewrite truncated_vars. rewrite (sumover_dom _ (states_of N)) by (intros; apply truncated_states).
    rewrite (Qcmult_comm _ (prob c x ps)), (Qcmult_comm _ (weight_in d x)).
    rewrite <- (sumover_mul_l (states_of N) (vars N) (fun _ => prob c x ps) _ []); [|intros ? ? ?; auto|intros ? []].
    rewrite <- (sumover_mul_l (states_of N) (vars N) (fun _ => weight_in d x) _ []); [|intros ? ? ?; auto|intros ? []].
    apply sumover_ext. intros b _ _. destruct (P b) eqn:Q; [|ring]. destruct (H b Q) as [<- <-]. rewrite Qcmult_comm, truncated_factor. ring.
  Qed.

  Lemma obsA_pa obs a : incl (parents c) (map fst obs) -> obsA obs a = true -> map a (parents c) = map (value_in obs) (parents c).
  Proof. intros Pa Q. apply map_ext_in. intros p Hp. apply (value_in_obs obs a p Q (Pa p Hp)). Qed.

  (** Events with observed parents, for a state of the variable *)
  Lemma truncated_with_parents obs (Q : assign -> bool) x : valid_obs N obs -> incl (parents c) (map fst obs) -> looks (fun u => In u (vars N)) Q ->
    Pr (truncated N v d) (fun w => (fun a => obsA obs a && Q a && label_eqb (a v) x)%bool (at_ w)) * prob c x (map (value_in obs) (parents c)) =
    Pr N (fun w => (fun a => obsA obs a && Q a && label_eqb (a v) x)%bool (at_ w)) * weight_in d x.
  Proof.
    intros VO Pa L. apply truncated_event.
    - apply and_looks; [apply and_looks; auto; apply obsA_looks|apply is_looks, (in_vars N v c I)].
      intros y Hy. apply in_map_iff in Hy. destruct Hy as ([y' z] & <- & Hy). apply (proj2 VO y' z Hy).
    - intros a Ha. apply andb_prop in Ha. destruct Ha as [Ha Hx]. apply andb_prop in Ha. destruct Ha as [Ha _].
      split; [destruct (label_eqb_spec (a v) x); congruence|apply obsA_pa; auto].
  Qed.

  (** Where the distribution has no weight there is no mass *)
  Lemma no_weight (Q : assign -> bool) x : looks (fun u => In u (vars N)) Q -> weight_in d x = 0 ->
    Pr (truncated N v d) (fun w => (fun a => Q a && label_eqb (a v) x)%bool (at_ w)) = 0.
  Proof.
    intros L W. etransitivity; [apply (Pr_mass _ (fun a => Q a && label_eqb (a v) x)%bool (fun _ => LInt 0) SO')|].
    { rewrite truncated_vars. apply and_looks; auto. apply is_looks, (in_vars N v c I). }
    unfold mass. rewrite (sumover_ext _ _ _ (fun _ => 0 * 0)).
    - rewrite (sumover_mul_l _ _ (fun _ => 0) (fun _ => 0) []); [ring|intros ? ? ?; auto|intros ? []].
    - intros b _ _. destruct (Q b && label_eqb (b v) x)%bool eqn:E; [|ring]. apply andb_prop in E. destruct E as [_ E].
      destruct (label_eqb_spec (b v) x) as [<-|]; [|discriminate]. unfold jointf. rewrite (Qprod_zero _ _ (v, fixed c d)); [ring| |].
      + unfold truncated. apply in_map_iff. exists (v, c). cbn. rewrite String.eqb_refl. auto.
      + unfold factor_at. cbn. auto.
  Qed.
  Lemma point_mass (Q : assign -> bool) x : looks (fun u => In u (vars N)) Q -> In x (states c) -> (forall y, In y (states c) -> y <> x -> weight_in d y = 0) ->
    Pr (truncated N v d) (fun w => Q (at_ w)) = Pr (truncated N v d) (fun w => (fun a => Q a && label_eqb (a v) x)%bool (at_ w)).
  Proof.
    intros L Hx W. rewrite (Pr_split _ SO' (fun w => Q (at_ w)) v) by (rewrite truncated_vars; apply (in_vars N v c I)).
    rewrite truncated_states, (states_of_In N v c (ok_vars N SO) I).
    rewrite (Qsum_single _ _ x); auto; [apply (ok_states N SO v c I)|]. intros y Hy Ny. apply (no_weight Q y L). auto.
  Qed.

  (** Doing is seeing once the parents are observed *)
  Lemma do_is_see obs x u s : valid_obs N obs -> incl (parents c) (map fst obs) -> In u (vars N) -> In x (states c) ->
    weight_in d x = 1 -> (forall y, In y (states c) -> y <> x -> weight_in d y = 0) ->
    Pr N (observed ((v, x) :: obs)) <> 0 ->
    cond_prob (truncated N v d) obs u s = cond_prob N ((v, x) :: obs) u s.
  Proof.
    intros VO Pa Hu Hx W1 W0 Nz.
    assert (Lo : looks (fun y => In y (vars N)) (obsA obs)).
    { apply obsA_looks. intros y Hy. apply in_map_iff in Hy. destruct Hy as ([y' z] & <- & Hy). apply (proj2 VO y' z Hy). }
    set (k := prob c x (map (value_in obs) (parents c))).
    assert (G : forall Q, looks (fun y => In y (vars N)) Q -> Pr (truncated N v d) (fun w => (obsA obs (at_ w) && Q (at_ w))%bool) * k = Pr N (fun w => (obsA ((v, x) :: obs) (at_ w) && Q (at_ w))%bool)).
    { intros Q LQ. rewrite (point_mass (fun a => obsA obs a && Q a)%bool x); auto; [|apply and_looks; auto].
      unfold k. rewrite (truncated_with_parents obs Q x VO Pa LQ), W1. transitivity (Pr N (fun w => (obsA obs (at_ w) && Q (at_ w) && label_eqb (at_ w v) x)%bool)); [ring|].
      apply Pr_ext. intros w _. cbn [obsA forallb fst snd]. fold (obsA obs (at_ w)). destruct (obsA obs (at_ w)), (Q (at_ w)), (label_eqb (at_ w v) x); auto. }
    pose proof (G (fun _ => true) (fun _ _ _ => eq_refl)) as G1. pose proof (G (fun a => label_eqb (a u) s) (is_looks _ u s Hu)) as G2.
    assert (E1 : Pr (truncated N v d) (observed obs) * k = Pr N (observed ((v, x) :: obs))).
    { rewrite (Pr_ext N _ (fun w => (obsA ((v, x) :: obs) (at_ w) && true)%bool)) by (intros; rewrite andb_true_r; auto). rewrite <- G1. f_equal. apply Pr_ext. intros. rewrite andb_true_r. auto. }
    change (Pr_and (truncated N v d) obs u s * k = Pr_and N ((v, x) :: obs) u s) in G2.
    assert (K : k <> 0) by (intros Z; apply Nz; rewrite <- E1, Z; ring).
    assert (T : Pr (truncated N v d) (observed obs) <> 0) by (intros Z; apply Nz; rewrite <- E1, Z; ring).
    unfold cond_prob. rewrite <- E1, <- G2.
    destruct (Qc_eq_bool_spec (Pr (truncated N v d) (observed obs)) 0) as [|_]; [congruence|].
    destruct (Qc_eq_bool_spec (Pr (truncated N v d) (observed obs) * k) 0) as [Z|_]; [exfalso; apply Nz; congruence|]. field. auto.
  Qed.
End Do.

(** ** Adjusting for the parents *)
Section Adjust.
  Context (N : net) (v : string) (c : cpd) (d : list (label * Qc)).
  Context (SO : shape_ok N) (SO' : shape_ok (truncated N v d)) (CS : columns_sum_1 N) (CS' : columns_sum_1 (truncated N v d)) (I : In (v, c) N).
  (** every state given weight can happen for every possible setting of the parents *)
  Context (Pos : forall x o, In x (states c) -> weight_in d x <> 0 -> In o (settings N (parents c)) -> Pr N (observed o) <> 0 -> Pr N (observed ((v, x) :: o)) <> 0).

  Lemma parents_before o : In o (settings N (parents c)) -> forall y, In y (map fst o) -> y <> v /\ ~ path (parent_arrows N) v y.
  Proof.
    intros Ho y Hy. rewrite (settings_fst _ _ _ Ho) in Hy.
    assert (Q : path (parent_arrows N) y v) by (apply path_one, parents_arrow, parents_of_In; eauto). split.
    - intros ->. apply (ok_dag N SO v Q).
    - intros P2. apply (ok_dag N SO v). eapply path_trans; eauto.
  Qed.

  Lemma adjust u s : In u (vars N) ->
    Pr_and (truncated N v d) [] u s =
    Qsum (fun x => weight_in d x * Qsum (fun o => Pr N (observed o) * cond_prob N ((v, x) :: o) u s) (settings N (parents c))) (states c).
  Proof.
    intros Hu. pose proof (proj1 (ok_parents N SO v c I)) as NDp. pose proof (proj2 (ok_parents N SO v c I)) as Ip.
    unfold Pr_and. rewrite (Pr_split _ SO' _ v) by (rewrite truncated_vars; apply (in_vars N v c I)).
    rewrite truncated_states, (states_of_In N v c (ok_vars N SO) I). apply Qsum_ext. intros x Hx.
    rewrite (Pr_total _ SO' (parents c)) by (rewrite truncated_vars; auto).
    assert (Es : settings (truncated N v d) (parents c) = settings N (parents c)).
    { clear. induction (parents c) as [|p ps IH]; cbn; auto. rewrite truncated_states, IH. auto. }
    rewrite Es, <- Qsum_mul_l. apply Qsum_ext. intros o Ho.
    pose proof (settings_valid N (parents c) o NDp Ip Ho) as VO.
    assert (Pa : incl (parents c) (map fst o)) by (rewrite (settings_fst _ _ _ Ho); apply incl_refl).
    set (k := prob c x (map (value_in o) (parents c))).
    pose proof (truncated_with_parents N v c d SO SO' I o (fun a => label_eqb (a u) s) x VO Pa (is_looks _ u s Hu)) as G. fold k in G. cbn beta in G.
    rewrite (Pr_ext (truncated N v d) _ (fun w => (obsA o (at_ w) && label_eqb (at_ w u) s && label_eqb (at_ w v) x)%bool)).
    2:{ intros w _. unfold is_. change (observed o w) with (obsA o (at_ w)). cbn [observed forallb]. destruct (obsA o (at_ w)), (label_eqb (at_ w u) s), (label_eqb (at_ w v) x); auto. }
    set (T := Pr (truncated N v d) _) in *.
    assert (EM : Pr N (observed ((v, x) :: o)) = Pr N (observed o) * k).
    { unfold k. rewrite <- (markov_mass N v c o SO CS I VO Pa (parents_before o Ho) x Hx). apply Pr_ext. intros w _. cbn [observed forallb fst snd]. unfold is_. apply andb_comm. }
    assert (EA : Pr N (fun w => (obsA o (at_ w) && label_eqb (at_ w u) s && label_eqb (at_ w v) x)%bool) = Pr_and N ((v, x) :: o) u s).
    { unfold Pr_and. apply Pr_ext. intros w _. unfold is_. cbn [observed forallb fst snd]. change (forallb _ o) with (obsA o (at_ w)). destruct (obsA o (at_ w)), (label_eqb (at_ w u) s), (label_eqb (at_ w v) x); auto. }
    rewrite EA in G.
    destruct (Qc_eq_dec (weight_in d x) 0) as [W0|W1].
    { rewrite W0, Qcmult_0_l. unfold T. apply (no_weight N v c d SO' I (fun a => obsA o a && label_eqb (a u) s)%bool x); auto.
      apply and_looks; [|apply is_looks; auto]. apply obsA_looks. intros y Hy. rewrite (settings_fst _ _ _ Ho) in Hy. auto. }
    destruct (Qc_eq_dec (Pr N (observed o)) 0) as [Z|NZ].
    { rewrite Z, Qcmult_0_l, Qcmult_0_r. assert (U : Pr (truncated N v d) (observed o) = 0).
      { rewrite <- Z, !Pr_obs. apply (unaffected_event N v d SO CS SO' CS' (map fst o)).
        - intros y Hy. split; [|apply (parents_before o Ho y Hy)]. rewrite (settings_fst _ _ _ Ho) in Hy. auto.
        - apply obsA_looks. auto. }
      apply Qcle_antisym.
      - rewrite <- U. unfold T. apply Pr_mono; auto. intros w _ Hw. change (observed o w) with (obsA o (at_ w)). destruct (obsA o (at_ w)); auto.
      - apply Pr_nonneg; auto. }
    pose proof (Pos x o Hx W1 Ho NZ) as NP. unfold cond_prob. destruct (Qc_eq_bool_spec (Pr N (observed ((v, x) :: o))) 0) as [|_]; [congruence|].
    rewrite EM in NP |- *. assert (NK : k <> 0) by (intros Zk; apply NP; rewrite Zk; ring).
    transitivity (T * k / k); [field; auto|]. rewrite G. field. auto.
  Qed.
End Adjust.
