(** * CausalFront: front-door adjustment, over the specification of networks. *)
From Coq Require Import List Bool Arith ZArith Lia String QArith Qcanon Permutation Relations.
From Verif Require Import Base QcX Digraph BbnModel SumOver BbnTables InferSpec InferProofs InferEngine InferMain CausalCore CausalThms CausalDo CausalSep DsepSpec CausalTrail CausalBack CausalBackApi InferOps.
Import ListNotations.
Local Open Scope Qc_scope.
Local Open Scope list_scope.

(** The arrows that do not end in [m]. *)
Definition arrows_not_into (m : string) (N : net) : list (string * string) :=
  filter (fun e => negb (String.eqb (snd e) m)) (parent_arrows N).

(** [m] meets the front-door criterion for the effect of [v] on [u] (Pearl, Causality, 3.3.2): every directed path
    from [v] to [u] goes through [m], all back doors from [v] to [m] are blocked, and [v] blocks those from [m] to [u]. *)
Definition front_door (N : net) (v m u : string) : Prop :=
  ~ path (arrows_not_into m N) v u /\ back_door N [] v m /\ back_door N [v] m u.

Lemma truncated_comm N v d m p : v <> m -> truncated (truncated N v d) m p = truncated (truncated N m p) v d.
Proof.
  intros Nvm. unfold truncated. rewrite !map_map. apply map_ext. intros [x c]. cbn [fst snd].
  destruct (String.eqb x v) eqn:Ev; destruct (String.eqb x m) eqn:Em; cbn [fst snd]; rewrite ?Ev, ?Em; auto.
  apply String.eqb_eq in Ev, Em. congruence.
Qed.

Lemma truncated_arrow N v d x y : arrow (truncated N v d) x y <-> arrow N x y /\ y <> v.
Proof.
  unfold arrow. rewrite <- !parents_arrow, !parents_of_In. split.
  - intros (c & I & P). apply truncated_In in I. destruct I as (c0 & I & [[-> ->]|[Ny ->]]); [destruct P|]. split; eauto.
  - intros ((c & I & P) & Ny). exists c. split; auto. unfold truncated. apply in_map_iff. exists (y, c). cbn [fst]. rewrite (proj2 (String.eqb_neq y v)); auto.
Qed.

(** Without colliders a trail that starts forwards goes forwards to its end. *)
Lemma forwards N m : forall l a b, active N [] (a :: b :: l) -> arrow N a b -> ~ In m (b :: l) -> path (arrows_not_into m N) a (last (b :: l) a).
Proof.
  induction l as [|c l IH]; intros a b Ac Ar Nm.
  - cbn [last]. apply path_one. unfold arrows_not_into. apply filter_In. split; [exact Ar|]. cbn [snd]. rewrite (proj2 (String.eqb_neq b m)); auto. intros ->. apply Nm; left; auto.
  - destruct Ac as (_ & Pa & Ac). assert (Bc : arrow N b c).
    { destruct Ac as ([Q|Q] & _); auto. destruct (proj1 Pa (conj Ar Q)) as (z & [] & _). }
    apply path_step with b.
    + unfold arrows_not_into. apply filter_In. split; [exact Ar|]. cbn [snd]. rewrite (proj2 (String.eqb_neq b m)); auto. intros ->. apply Nm; left; auto.
    + rewrite (last_any b (c :: l) a b). change (last (b :: c :: l) b) with (last (c :: l) b). apply IH; auto. intros Q. apply Nm. right. auto.
Qed.

Lemma active_tail N Z : forall l1 l2, active N Z (l1 ++ l2) -> active N Z l2.
Proof.
  induction l1 as [|a l1 IH]; intros l2 Ac; auto. apply IH. cbn [app] in Ac. destruct (l1 ++ l2) as [|b r]; [exact I|]. destruct Ac as (_ & _ & Ac). exact Ac.
Qed.

(** Away from [v] nothing changes *)
Lemma active_elsewhere N v d : forall l, ~ In v l -> active (truncated N v d) [] l -> active N [v] l.
Proof.
  induction l as [|a l IH]; intros Nv Ac; [exact I|]. destruct l as [|b l]; [exact I|]. destruct Ac as (Ar & Pa & Ac). split; [|split].
  - destruct Ar as [Q|Q]; apply truncated_arrow in Q; tauto.
  - destruct l as [|c l]; auto. destruct Pa as [P1 P2]. split.
    + intros [Q1 Q2]. destruct P1 as (z & [] & _). split; apply truncated_arrow; (split; [auto|]); intros ->; apply Nv; right; left; auto.
    + intros _ [->|[]]. apply Nv. right. left. auto.
  - apply IH; auto. intros Q. apply Nv. right. auto.
Qed.

Lemma no_other_way N v d m u : v <> m -> v <> u -> ~ path (arrows_not_into m N) v u -> back_door N [v] m u ->
  forall b l, trail (m :: b :: l) m u -> arrow (truncated N v d) b m -> ~ active (truncated N v d) [] (m :: b :: l).
Proof.
  intros Nvm Nvu Np [_ BD] b l T Ar Ac. destruct (in_dec string_dec v (m :: b :: l)) as [Hv|Nv].
  - apply in_split in Hv. destruct Hv as (l1 & l2 & E). destruct T as (ND & _ & La). rewrite E in *.
    destruct l1 as [|m' l1]; [cbn in E; injection E as <-; congruence|]. cbn [app] in E. injection E as <- E.
    rewrite last_app in La. destruct l2 as [|w l2]; [cbn in La; congruence|].
    pose proof (active_tail _ _ (m :: l1) (v :: w :: l2) Ac) as A2.
    assert (F : arrow (truncated N v d) v w).
    { destruct A2 as ([Q|Q] & _); auto. apply truncated_arrow in Q. destruct Q as [_ []]; auto. }
    assert (P : path (arrows_not_into m (truncated N v d)) v (last (w :: l2) v)).
    { apply forwards; auto. intros Q. inversion ND as [|? ? N1 N2]; subst. apply N1. apply in_app_iff. right. right. auto. }
    apply Np. rewrite <- La. change (last (v :: w :: l2) m) with (last (w :: l2) m). rewrite (last_any w l2 m v).
    revert P. apply path_incl. intros [x y] Hxy. unfold arrows_not_into in *. apply filter_In in Hxy. destruct Hxy as [Hxy Q]. apply filter_In. split; auto.
    apply (truncated_arrow N v d x y) in Hxy. apply Hxy.
  - apply (BD b l T); [apply truncated_arrow in Ar; apply Ar|]. eapply active_elsewhere; eauto.
Qed.

(** ** Networks after an intervention *)
Lemma truncated_good N v c d : shape_ok N -> columns_sum_1 N -> In (v, c) N -> dist_on (states c) d ->
  shape_ok (truncated N v d) /\ columns_sum_1 (truncated N v d).
Proof.
  intros SO CS I D. assert (E : truncated N v d = edited (set_do no_do v (Some d)) N) by (rewrite <- edited_truncated, edited_none; auto).
  assert (DO : dists_ok N (set_do no_do v (Some d))).
  { intros w c' d' I' Q. unfold set_do, no_do in Q. destruct (String.eqb_spec w v) as [->|]; [|discriminate]. injection Q as <-.
    assert (c' = c); [|subst; auto]. pose proof (ok_vars N SO) as ND. clear - ND I I'. unfold vars in ND. induction N as [|[a b] M IH]; [destruct I|]. inversion ND as [|? ? N1 N2]; subst.
    destruct I as [I|I], I' as [I'|I']; try congruence; auto.
    - injection I as -> ->. exfalso. apply N1. apply in_map_iff. exists (v, c'). auto.
    - injection I' as -> ->. exfalso. apply N1. apply in_map_iff. exists (v, c). auto. }
  rewrite E. split; [apply edited_shape|apply edited_columns]; auto.
Qed.

Definition all_at (sts : list label) (y : label) : dist := map (fun s => (s, if label_eqb s y then 1 else 0)) sts.

Lemma all_at_fst sts y : map fst (all_at sts y) = sts.
Proof. unfold all_at. rewrite map_map. cbn. apply map_id. Qed.
Lemma all_at_dist sts y : NoDup sts -> In y sts -> dist_on sts (all_at sts y).
Proof.
  intros ND Hy. split; [rewrite all_at_fst; auto|]. split; [rewrite all_at_fst; tauto|]. split.
  - intros s p Q. apply in_map_iff in Q. destruct Q as (s' & [= <- <-] & _). destruct (label_eqb s' y); split; discriminate.
  - unfold all_at. rewrite Qsum_map. cbn [snd]. rewrite (Qsum_single _ _ y ND Hy).
    + destruct (label_eqb_spec y y); congruence.
    + intros z _ Nz. destruct (label_eqb_spec z y); congruence.
Qed.
Lemma all_at_weight sts y s : NoDup sts -> In s sts -> weight_in (all_at sts y) s = if label_eqb s y then 1 else 0.
Proof. intros ND Hs. apply weight_in_In; [rewrite all_at_fst; auto|]. apply in_map_iff. exists s. auto. Qed.

Lemma Pr_one N : shape_ok N -> columns_sum_1 N -> Pr N (observed []) = 1.
Proof.
  intros SO CS. change (observed []) with (fun w : list (string * label) => (fun _ : assign => true) (at_ w)).
  etransitivity; [apply (Pr_keep _ (fun _ => false) (fun _ => true) (fun _ => LInt 0) SO CS)|]; [intros ? ? ? _ H; discriminate|intros ? ? _; auto|].
  unfold mass. replace (keep (fun _ => false) N) with ([] : net); [reflexivity|]. clear. induction N as [|x l IH]; [reflexivity|exact IH].
Qed.

Lemma cond_prob_nothing N u s : shape_ok N -> columns_sum_1 N -> cond_prob N [] u s = Pr_and N [] u s.
Proof.
  intros SO CS. unfold cond_prob. rewrite (Pr_one N SO CS). destruct (Qc_eq_bool_spec 1 0) as [Z0|_]; [discriminate Z0|]. unfold Qcdiv. change (/ 1) with 1. ring.
Qed.

Section Front.
  Context (N : net) (v m u : string) (c cm : cpd) (d : dist) (x : label).
  Context (SO : shape_ok N) (CS : columns_sum_1 N) (Iv : In (v, c) N) (Im : In (m, cm) N) (Hu : In u (vars N)).
  Context (Nvm : v <> m) (Nvu : v <> u) (Nmu : m <> u) (FD : front_door N v m u).
  Context (D : dist_on (states c) d) (Hx : In x (states c)) (W1 : weight_in d x = 1) (W0 : forall y, In y (states c) -> y <> x -> weight_in d y = 0).
  Context (Px : Pr N (observed [(v, x)]) <> 0).
  Context (Pos : forall y x', In y (states cm) -> In x' (states c) -> cond_prob N [(v, x)] m y <> 0 -> Pr N (observed [(v, x')]) <> 0 -> Pr N (observed [(m, y); (v, x')]) <> 0).

  Local Notation N' := (truncated N v d).

  (** the effect on the mediator *)
  Lemma on_mediator y : cond_prob N' [] m y = cond_prob N [(v, x)] m y.
  Proof.
    destruct (truncated_good N v c d SO CS Iv D) as [SO' CS']. destruct FD as (_ & [_ BD] & _). pose proof (in_vars N m cm Im) as Hm.
    rewrite (point_cond N v c d [] x m y SO SO' Iv Hx Hm); [|intros ? []|auto]. apply (back_door_see N v d SO SO' CS CS' c x [] m y); auto.
    - split; [repeat constructor; cbn; tauto|]. intros a b [[= <- <-]|[]]. split; [apply (in_vars N v c Iv)|]. rewrite (states_of_In N v c (ok_vars N SO) Iv). auto.
    - rewrite W1. discriminate.
  Qed.

  (** the effect of the mediator *)
  Lemma of_mediator y s : In y (states cm) -> cond_prob N' [] m y <> 0 ->
    cond_prob N' [(m, y)] u s = Qsum (fun x' => Pr N (observed [(v, x')]) * cond_prob N [(m, y); (v, x')] u s) (states c).
  Proof.
    intros Hy Ny. destruct (truncated_good N v c d SO CS Iv D) as [SO' CS']. pose proof FD as (Np & _ & BD). pose proof (in_vars N m cm Im) as Hm. pose proof (in_vars N v c Iv) as Hv.
    set (p := all_at (states cm) y). assert (NDm : NoDup (states cm)) by apply (ok_states N SO m cm Im). assert (Dp : dist_on (states cm) p) by (apply all_at_dist; auto).
    assert (Im' : In (m, cm) N') by (unfold truncated; apply in_map_iff; exists (m, cm); cbn [fst]; rewrite (proj2 (String.eqb_neq m v)); auto).
    destruct (truncated_good N m cm p SO CS Im Dp) as [SOm CSm]. destruct (truncated_good N' m cm p SO' CS' Im' Dp) as [SO2 CS2].
    assert (Wy : weight_in p y = 1) by (unfold p; rewrite all_at_weight; auto; destruct (label_eqb_spec y y); congruence).
    assert (Wn : forall z, In z (states cm) -> z <> y -> weight_in p z = 0) by (intros z Hz Nz; unfold p; rewrite all_at_weight; auto; destruct (label_eqb_spec z y); congruence).
    assert (Hu' : In u (vars N')) by (rewrite truncated_vars; auto).
    rewrite <- (back_door_see N' m p SO' SO2 CS' CS2 cm y [] u s); auto.
    - rewrite <- (point_cond N' m cm p [] y u s SO' SO2 Im' Hy Hu'); [|intros ? []|auto].
      rewrite (truncated_comm N v d m p Nvm) in *.
      rewrite (unaffected (truncated N m p) v d SOm CSm SO2 CS2 [] u s).
      2:{ intros z [<-|[]]. split; [rewrite truncated_vars; auto|]. split; [auto|]. intros P. apply Np. revert P. apply path_incl. intros [a b] Hab.
          apply (truncated_arrow N m p a b) in Hab. unfold arrows_not_into. apply filter_In. split; [apply Hab|]. cbn [snd]. rewrite (proj2 (String.eqb_neq b m)); auto. apply Hab. }
      rewrite cond_prob_nothing by auto.
      rewrite (back_door_adjust N m p SO SOm CS CSm cm [v] u s); auto.
      + rewrite (Qsum_single _ _ y NDm Hy).
        * rewrite Wy, Qcmult_1_l. cbn [settings]. rewrite (states_of_In N v c (ok_vars N SO) Iv). rewrite Qsum_flat_map. apply Qsum_ext. intros x' _. cbn [map]. rewrite Qsum_cons, Qsum_nil. ring.
        * intros z Hz Nz. rewrite (Wn z Hz Nz). ring.
      + repeat constructor. tauto.
      + intros z [<-|[]]. auto.
      + intros [Q|[]]. auto.
      + intros z o Hz Wz Ho Po. destruct (label_eqb_spec z y) as [->|Nz]; [|exfalso; apply Wz; auto].
        cbn [settings] in Ho. rewrite (states_of_In N v c (ok_vars N SO) Iv) in Ho. apply in_flat_map in Ho. destruct Ho as (x' & Hx' & [<-|[]]). apply Pos; auto. rewrite <- on_mediator. auto.
    - split; [repeat constructor; cbn; tauto|]. intros a b [[= <- <-]|[]]. split; [rewrite truncated_vars; auto|]. rewrite truncated_states, (states_of_In N m cm (ok_vars N SO) Im). auto.
    - apply no_other_way; auto.
    - rewrite Wy. discriminate.
    - rewrite cond_prob_nothing in Ny by auto. intros Q. apply Ny. rewrite <- Q. apply Pr_ext. intros w _. unfold is_. cbn [observed forallb fst snd andb]. rewrite andb_true_r. auto.
  Qed.

  Theorem front_door_adjust s : cond_prob N' [] u s =
    Qsum (fun y => cond_prob N [(v, x)] m y * Qsum (fun x' => Pr N (observed [(v, x')]) * cond_prob N [(m, y); (v, x')] u s) (states c)) (states cm).
  Proof.
    destruct (truncated_good N v c d SO CS Iv D) as [SO' CS']. pose proof (in_vars N m cm Im) as Hm.
    rewrite cond_prob_nothing by auto. unfold Pr_and. rewrite (Pr_split _ SO' _ m) by (rewrite truncated_vars; auto).
    rewrite truncated_states, (states_of_In N m cm (ok_vars N SO) Im). apply Qsum_ext. intros y Hy. rewrite <- on_mediator.
    assert (E : Pr N' (fun w => (observed [] w && is_ u s w && label_eqb (at_ w m) y)%bool) = Pr_and N' [(m, y)] u s).
    { apply Pr_ext. intros w _. unfold is_. cbn [observed forallb fst snd andb]. rewrite andb_true_r. apply andb_comm. }
    assert (Em : cond_prob N' [] m y = Pr N' (observed [(m, y)])).
    { rewrite cond_prob_nothing by auto. apply Pr_ext. intros w _. unfold is_. cbn [observed forallb fst snd andb]. rewrite andb_true_r. auto. }
    rewrite E. destruct (Qc_eq_dec (cond_prob N' [] m y) 0) as [Z|NZ].
    - rewrite Z, Qcmult_0_l. apply Qcle_antisym; [|apply Pr_nonneg; auto]. rewrite <- Z, Em. apply Pr_mono; auto. intros w _ Hw. apply andb_prop in Hw. tauto.
    - rewrite <- (of_mediator y s Hy NZ). rewrite Em in *. unfold cond_prob. destruct (Qc_eq_bool_spec (Pr N' (observed [(m, y)])) 0) as [|_]; [congruence|]. field. auto.
  Qed.
End Front.
