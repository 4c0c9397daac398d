(** * CausalSep: evidence separated from a variable is irrelevant to it. *)
From Coq Require Import List Bool Arith ZArith Lia String QArith Qcanon Permutation Relations.
From Verif Require Import Base QcX Digraph BbnModel SumOver BbnTables InferSpec InferProofs InferEngine InferMain CausalCore CausalThms.
Import ListNotations.
Local Open Scope Qc_scope.
Local Open Scope list_scope.

(** ** Separation (the moral graph of the ancestors) *)

(** [x] is one of [xs] or an ancestor of one of them *)
Definition relevant (N : net) (xs : list string) (x : string) : Prop := exists y, In y xs /\ (x = y \/ path (parent_arrows N) x y).
(** parent and child, or parents of one child *)
Definition moral (N : net) (xs : list string) (x y : string) : Prop :=
  relevant N xs x /\ relevant N xs y /\
  (In (x, y) (parent_arrows N) \/ In (y, x) (parent_arrows N) \/
   exists z, relevant N xs z /\ In (x, z) (parent_arrows N) /\ In (y, z) (parent_arrows N)).
(** a chain of such pairs that avoids [Z] *)
Definition linked (N : net) (xs Z : list string) : string -> string -> Prop :=
  clos_refl_trans string (fun x y => moral N xs x y /\ ~ In y Z).

(** ** Reachability in a finite graph is decidable *)
Lemma component (step : string -> string -> bool) (V : list string) u :
  exists S : list string, In u S /\ (forall x, In x S -> clos_refl_trans string (fun x y => In y V /\ step x y = true) u x) /\
    (forall x y, In x S -> In y V -> step x y = true -> In y S).
Proof.
  assert (G : forall n S, (List.length (filter (fun y => negb (smem y S)) V) <= n)%nat -> In u S -> (forall x, In x S -> clos_refl_trans string (fun x y => In y V /\ step x y = true) u x) ->
    exists S, In u S /\ (forall x, In x S -> clos_refl_trans string (fun x y => In y V /\ step x y = true) u x) /\ (forall x y, In x S -> In y V -> step x y = true -> In y S)).
  { induction n as [|n IH]; intros S Hn Hu HS.
    - exists S. split; auto. split; auto. intros x y _ Hy _. destruct (smem y S) eqn:E; [apply smem_In; auto|]. exfalso.
      assert (Q : In y (filter (fun y => negb (smem y S)) V)) by (apply filter_In; rewrite E; auto). destruct (filter _ V); [destruct Q|cbn in Hn; lia].
    - destruct (existsb (fun x => existsb (fun y => step x y && negb (smem y S)) V) S)%bool eqn:E.
      + apply existsb_exists in E. destruct E as (x & Hx & E). apply existsb_exists in E. destruct E as (y & Hy & E). apply andb_prop in E. destruct E as [E1 E2].
        apply (IH (y :: S)).
        * assert (L : (List.length (filter (fun z => negb (smem z (y :: S))) V) < List.length (filter (fun z => negb (smem z S)) V))%nat); [|lia].
          assert (Sub : forall z, negb (smem z (y :: S)) = true -> negb (smem z S) = true).
          { intros z Hz. apply negb_true_iff in Hz. apply negb_true_iff. destruct (smem z S) eqn:Q; auto. apply smem_In in Q. assert (T : smem z (y :: S) = true) by (apply smem_In; right; auto). congruence. }
          assert (F : negb (smem y (y :: S)) = false) by (apply negb_false_iff, smem_In; left; auto).
          clear - Hy E2 Sub F. induction V as [|z V IH]; [destruct Hy|]. cbn [filter].
          assert (Le : (List.length (filter (fun z => negb (smem z (y :: S))) V) <= List.length (filter (fun z => negb (smem z S)) V))%nat).
          { clear - Sub. induction V as [|z V IH]; cbn [filter]; [lia|]. pose proof (Sub z). destruct (negb (smem z (y :: S))), (negb (smem z S)); cbn [List.length]; try lia; try discriminate (H eq_refl). }
          destruct Hy as [->|Hy].
          -- rewrite F, E2. cbn [List.length]. lia.
          -- specialize (IH Hy). pose proof (Sub z). destruct (negb (smem z (y :: S))), (negb (smem z S)); cbn [List.length]; try lia; try discriminate (H eq_refl).
        * right; auto.
        * intros z [<-|Hz]; auto. eapply rt_trans; [apply (HS x Hx)|]. apply rt_step. auto.
      + exists S. split; auto. split; auto. intros x y Hx Hy Hs. destruct (smem y S) eqn:Q; [apply smem_In; auto|]. exfalso.
        assert (T : existsb (fun x => existsb (fun y => step x y && negb (smem y S)) V) S = true); [|congruence].
        apply existsb_exists. exists x. split; auto. apply existsb_exists. exists y. split; auto. rewrite Hs, Q. auto. }
  apply (G _ [u] (le_n _)); [left; auto|]. intros x [<-|[]]. apply rt_refl.
Qed.

(** ** Factorisation *)
Section Sep.
  Context (N : net) (SO : shape_ok N) (CS : columns_sum_1 N) (obs : list (string * label)) (A : string -> bool) (An : ancestral N A).
  Context (S : string -> bool).
  Context (SZ : forall x, In x (map fst obs) -> S x = false).
  (** a factor of an ancestor that mentions a variable of [S] mentions only variables of [S] and observed ones *)
  Context (Cl : forall v c x y, In (v, c) N -> A v = true -> In x (v :: parents c) -> In y (v :: parents c) -> S x = true -> S y = true \/ In y (map fst obs)).
  Context (Ob : forall x, In x (map fst obs) -> In x (vars N) /\ A x = true).

  Definition pin (a : assign) : assign := fun x => if smem x (map fst obs) then value_in obs x else a x.
  Definition touches (vc : string * cpd) : bool := existsb S (fst vc :: parents (snd vc)).

  (** the sum over the variables of [S], the observed ones at their values *)
  Definition side (Q1 : assign -> bool) : Qc :=
    sumover (states_of N) (filter S (vars (keep A N))) (fun a => if Q1 a then jointf (filter touches (keep A N)) (pin a) else 0) (fun _ => LInt 0).

  Lemma factorise : exists G2 : (assign -> bool) -> Qc, forall Q1 Q2,
    looks (fun x => In x (vars N) /\ A x = true /\ S x = true) Q1 -> looks (fun x => In x (vars N) /\ A x = true /\ S x = false) Q2 ->
    Pr N (fun w => (fun a => Q1 a && (obsA obs a && Q2 a))%bool (at_ w)) = side Q1 * G2 Q2.
  Proof.
    unfold side. set (a0 := fun _ : string => LInt 0). set (M := keep A N). set (M1 := filter touches M). set (M2 := filter (fun vc => negb (touches vc)) M).
    set (V1 := filter S (vars M)). set (V2 := filter (fun x => negb (S x)) (vars M)).
    exists (fun Q2 : assign -> bool => sumover (states_of N) V2 (fun a => if (obsA obs a && Q2 a)%bool then jointf M2 a else 0) a0).
    intros Q1 Q2 L1 L2.
    assert (Lo : looks (fun x => In x (vars N) /\ A x = true) (obsA obs)) by (apply obsA_looks; auto).
    assert (LQ : looks (fun x => In x (vars N) /\ A x = true) (fun a => Q1 a && (obsA obs a && Q2 a))%bool).
    { apply and_looks; [eapply looks_incl; [|exact L1]; cbn; tauto|]. apply and_looks; auto. eapply looks_incl; [|exact L2]; cbn; tauto. }
    rewrite (Pr_keep N A _ a0 SO CS An LQ). fold M.
    assert (Vm : forall x, In x (vars M) <-> In x (vars N) /\ A x = true) by (intros x; unfold M; rewrite keep_vars; apply filter_In).
    assert (Clo : closed_in M).
    { intros u e Hu p Hp. apply filter_In in Hu. destruct Hu as [Hu Au]. apply Vm. split; [apply (proj2 (ok_parents N SO u e Hu) p Hp)|apply (An u e p Hu Au Hp)]. }
    assert (Pv : Permutation (vars M) (V1 ++ V2)).
    { unfold V1, V2. clear. induction (vars M) as [|x l IH]; cbn; auto. destruct (S x); cbn; [apply perm_skip; auto|]. apply Permutation_cons_app. auto. }
    assert (Pm : Permutation M (M1 ++ M2)).
    { unfold M1, M2. clear. generalize touches as f. intros f. induction M as [|x l IH]; cbn; auto. destruct (f x); cbn; [apply perm_skip; auto|]. apply Permutation_cons_app. auto. }
    unfold mass. rewrite (sumover_perm _ _ (V1 ++ V2)); auto.
    2:{ eapply dep_ext. apply mass_dep; auto. eapply looks_incl; [|exact LQ]. cbn. intros; apply Vm; auto. }
    rewrite <- (sumover_mul_split (states_of N) V1 V2 _ _ V1 V2).
    - apply sumover_ext. intros b _ _. destruct (Q1 b), (obsA obs b && Q2 b)%bool eqn:E; cbn [andb]; try ring.
      apply andb_prop in E. destruct E as [E _]. unfold jointf at 1. rewrite (Qprod_perm _ M (M1 ++ M2)) by auto. rewrite Qprod_app. f_equal.
      apply Qprod_ext. intros [v c] _. apply factor_agree; intros; unfold pin; destruct (smem _ _) eqn:Q; auto; apply value_in_obs; auto; apply smem_In; auto.
    - intros a b E. rewrite (L1 a b) by (intros x (Hx & Ax & Sx); apply E, filter_In; split; auto; apply Vm; auto).
      destruct (Q1 b); auto. apply Qprod_ext. intros [v c] Hv. apply filter_In in Hv. destruct Hv as [Hv T]. unfold M in Hv. apply filter_In in Hv. destruct Hv as [Hv Av]. cbn [fst] in Av.
      unfold touches in T. apply existsb_exists in T. destruct T as (x & Hx & Sx).
      assert (K : forall y, In y (v :: parents c) -> pin a y = pin b y).
      { intros y Hy. unfold pin. destruct (smem y (map fst obs)) eqn:Q; auto. apply E. apply filter_In. split.
        - destruct Hy as [<-|Hy]; [apply Vm; split; auto; apply (in_vars N v c Hv)|]. apply (Clo v c); auto. apply filter_In. auto.
        - destruct (Cl v c x y Hv Av Hx Hy Sx) as [|Q']; auto. apply smem_In in Q'. congruence. }
      apply factor_agree; cbn [fst snd]; [apply K; left; auto|intros; apply K; right; auto].
    - intros a b E. assert (Eo : obsA obs a = obsA obs b).
      { apply (obsA_looks (fun x => In x (map fst obs)) obs); auto. intros x Hx. apply E, filter_In. rewrite (SZ x Hx). split; auto. apply Vm. auto. }
      rewrite Eo, (L2 a b) by (intros x (Hx & Ax & Sx); apply E, filter_In; rewrite Sx; split; auto; apply Vm; auto).
      destruct (obsA obs b && Q2 b)%bool; auto. apply Qprod_ext. intros [v c] Hv. apply filter_In in Hv. destruct Hv as [Hv T].
      assert (K : forall y, In y (v :: parents c) -> a y = b y).
      { intros y Hy. apply E. apply filter_In. split.
        - destruct Hy as [<-|Hy]; [apply (in_vars M v c Hv)|apply (Clo v c Hv y Hy)].
        - destruct (S y) eqn:Q; auto. exfalso. apply negb_true_iff in T. assert (touches (v, c) = true); [|congruence]. apply existsb_exists. exists y. auto. }
      apply factor_agree; cbn [fst snd]; [apply K; left; auto|intros; apply K; right; auto].
    - intros x Hx Hy. apply filter_In in Hx. apply filter_In in Hy. destruct Hx as [_ Hx], Hy as [_ Hy]. rewrite Hx in Hy. discriminate.
    - intros x Hx Hy. apply filter_In in Hx. apply filter_In in Hy. destruct Hx as [_ Hx], Hy as [_ Hy]. rewrite Hy in Hx. discriminate.
  Qed.
End Sep.

Lemma ancestral_path N A x y : ancestral N A -> path (parent_arrows N) x y -> A y = true -> A x = true.
Proof.
  intros An P. induction P as [x y H|x y z H P IH]; intros Hy.
  - apply parents_arrow, parents_of_In in H. destruct H as (c & Hc & Hp). apply (An y c x Hc Hy Hp).
  - specialize (IH Hy). apply parents_arrow, parents_of_In in H. destruct H as (c & Hc & Hp). apply (An y c x Hc IH Hp).
Qed.

(** The variables linked to [u], and what their factors mention *)
Lemma split_net N xs Z u : shape_ok N -> In u xs -> ~ In u Z -> In u (vars N) ->
  exists A Sb : string -> bool, ancestral N A /\ (forall x, A x = true <-> relevant N xs x) /\ Sb u = true /\
    (forall x, Sb x = true -> linked N xs Z u x) /\ (forall x, In x Z -> Sb x = false) /\
    (forall v c x y, In (v, c) N -> A v = true -> In x (v :: parents c) -> In y (v :: parents c) -> Sb x = true -> Sb y = true \/ In y Z).
Proof.
  intros SO Uxs Nu Hu.
  destruct (ancestors N xs SO) as (A & An & Ax & Ay).
  assert (Rel : forall x, A x = true <-> relevant N xs x).
  { intros x. split; [apply Ay|]. intros (y & Hy & [->|P]); [apply Ax; auto|]. apply (ancestral_path N A x y An P). apply Ax; auto. }
  set (par := fun x y => smem x (parents_of N y)).
  assert (Par : forall x y, par x y = true <-> In (x, y) (parent_arrows N)) by (intros; unfold par; rewrite smem_In; apply parents_arrow).
  set (V := filter (fun x => A x && negb (smem x (Z)))%bool (vars N)).
  set (step := fun x y => (A x && A y && (par x y || par y x || existsb (fun z => A z && par x z && par y z) (vars N)))%bool).
  destruct (component step V u) as (S & Su & Sr & Sc).
  assert (Sl : forall x, In x S -> linked N xs (Z) u x).
  { intros x Hx. specialize (Sr x Hx). clear - Sr Par Rel. unfold linked. induction Sr as [x y [Hy H]| |]; [|apply rt_refl|eapply rt_trans; eauto].
    apply rt_step. apply filter_In in Hy. destruct Hy as [_ Hy]. apply andb_prop in Hy. destruct Hy as [_ Hy]. unfold step in H. apply andb_prop in H. destruct H as [H1 H].
    apply andb_prop in H1. destruct H1 as [Hx H1]. split; [|intros Q; apply smem_In in Q; rewrite Q in Hy; discriminate].
    split; [apply Rel; auto|]. split; [apply Rel; auto|]. apply orb_prop in H. destruct H as [H|H]; [apply orb_prop in H; destruct H as [H|H]; apply Par in H; auto|].
    right. right. apply existsb_exists in H. destruct H as (z & _ & H). apply andb_prop in H. destruct H as [H H2]. apply andb_prop in H. destruct H as [Hz H3].
    exists z. split; [apply Rel; auto|]. split; apply Par; auto. }
  set (Sb := fun x => smem x S).
  assert (Sx : forall x, Sb x = true -> x = u \/ In x V).
  { intros x Hx. apply smem_In in Hx. specialize (Sr x Hx). apply clos_rt_rtn1 in Sr. inversion Sr; subst; [auto|right; tauto]. }
  assert (SZ : forall x, In x (Z) -> Sb x = false).
  { intros x Hx. destruct (Sb x) eqn:E; auto. exfalso. destruct (Sx x E) as [->|Q]; auto. apply filter_In in Q. destruct Q as [_ Q]. apply andb_prop in Q. destruct Q as [_ Q]. apply smem_In in Hx. rewrite Hx in Q. discriminate. }
  exists A, Sb. split; auto. split; auto. split; [apply smem_In; auto|]. split; [intros x Hx; apply Sl, smem_In; auto|]. split; auto.
  intros v c x y Hv Av Hx Hy Hs. destruct (smem y Z) eqn:Q; [right; apply smem_In; auto|left].
    assert (Axy : forall z, In z (v :: parents c) -> A z = true /\ In z (vars N)).
    { intros z [<-|Hz]; [split; auto; apply (in_vars N v c Hv)|]. split; [apply (An v c z Hv Av Hz)|apply (proj2 (ok_parents N SO v c Hv) z Hz)]. }
    assert (Arr : forall p, In p (parents c) -> par p v = true) by (intros p Hp; apply Par, parents_arrow, parents_of_In; eauto).
    destruct (String.eqb_spec x y) as [->|Nxy]; auto. apply smem_In. apply smem_In in Hs. apply (Sc x y Hs).
    - apply filter_In. destruct (Axy y Hy) as [A1 A2]. rewrite A1, Q. auto.
    - unfold step. rewrite (proj1 (Axy x Hx)), (proj1 (Axy y Hy)). cbn [andb]. destruct Hx as [<-|Hx], Hy as [<-|Hy]; [congruence| | |].
      + rewrite (Arr y Hy). rewrite orb_true_r. auto.
      + rewrite (Arr x Hx). auto.
      + apply orb_true_iff. right. apply existsb_exists. exists v. split; [apply (in_vars N v c Hv)|]. rewrite Av, (Arr x Hx), (Arr y Hy). auto.
Qed.

Theorem separated N obs extra u s : shape_ok N -> columns_sum_1 N -> valid_obs N obs -> valid_obs N extra -> In u (vars N) -> ~ In u (map fst obs) ->
  (forall t, In t (map fst extra) -> ~ linked N (u :: map fst extra ++ map fst obs) (map fst obs) u t) ->
  Pr N (observed (extra ++ obs)) <> 0 ->
  cond_prob N (extra ++ obs) u s = cond_prob N obs u s.
Proof.
  intros SO CS VO VE Hu Nu Sp Nz. set (xs := u :: map fst extra ++ map fst obs) in *.
  assert (Uxs : In u xs) by (left; auto). destruct (split_net N xs (map fst obs) u SO Uxs Nu Hu) as (A & Sb & An & Rel & Su & Sl & SZ & Cl).
  assert (Ax : forall x, In x xs -> A x = true) by (intros x Hx; apply Rel; exists x; auto).
  assert (Ob : forall x, In x (map fst obs) -> In x (vars N) /\ A x = true).
  { intros x Hx. split; [|apply Ax; right; apply in_app_iff; auto]. apply in_map_iff in Hx. destruct Hx as ([y z] & <- & Hx). apply (proj2 VO y z Hx). }
  destruct (factorise N SO CS obs A An Sb SZ Cl Ob) as (G2 & G). set (G1 := side N obs A Sb) in *.
  assert (LE : looks (fun x => In x (vars N) /\ A x = true /\ Sb x = false) (obsA extra)).
  { apply obsA_looks. intros x Hx. split; [|split].
    - apply in_map_iff in Hx. destruct Hx as ([y z] & <- & Hx). apply (proj2 VE y z Hx).
    - apply Ax. right. apply in_app_iff. auto.
    - destruct (Sb x) eqn:E; auto. exfalso. apply (Sp x Hx). apply Sl. auto. }
  assert (LU : looks (fun x => In x (vars N) /\ A x = true /\ Sb x = true) (fun a => label_eqb (a u) s)).
  { apply is_looks. split; auto. }
  assert (LT : forall B, looks B (fun _ => true)) by (intros B a b _; auto).
  set (yes := fun _ : assign => true). set (us := fun a : assign => label_eqb (a u) s).
  assert (E1 : Pr N (observed (extra ++ obs)) = G1 yes * G2 (obsA extra)).
  { rewrite <- (G yes (obsA extra) (LT _) LE). apply Pr_ext. intros w _. unfold observed, yes. rewrite forallb_app. cbn [andb]. apply andb_comm. }
  assert (E2 : Pr_and N (extra ++ obs) u s = G1 us * G2 (obsA extra)).
  { rewrite <- (G us (obsA extra) LU LE). apply Pr_ext. intros w _. unfold observed, us, is_. rewrite forallb_app. change (forallb _ extra) with (obsA extra (at_ w)). change (forallb _ obs) with (obsA obs (at_ w)).
    destruct (obsA extra (at_ w)), (obsA obs (at_ w)), (label_eqb (at_ w u) s); auto. }
  assert (E3 : Pr N (observed obs) = G1 yes * G2 yes).
  { rewrite <- (G yes yes (LT _) (LT _)). apply Pr_ext. intros w _. unfold yes. cbn [andb]. rewrite andb_true_r. auto. }
  assert (E4 : Pr_and N obs u s = G1 us * G2 yes).
  { rewrite <- (G us yes LU (LT _)). apply Pr_ext. intros w _. unfold yes, us, is_. rewrite andb_true_r. apply andb_comm. }
  assert (N3 : Pr N (observed obs) <> 0).
  { intros Z. apply Nz. apply Qcle_antisym; [|apply Pr_nonneg; auto]. rewrite <- Z. apply Pr_mono; auto. intros w _. unfold observed. rewrite forallb_app. intros Hw. apply andb_prop in Hw. tauto. }
  unfold cond_prob. destruct (Qc_eq_bool_spec (Pr N (observed (extra ++ obs))) 0) as [|_]; [congruence|]. destruct (Qc_eq_bool_spec (Pr N (observed obs)) 0) as [|_]; [congruence|].
  rewrite E1 in Nz. rewrite E3 in N3. rewrite E1, E2, E3, E4.
  assert (G1 yes <> 0) by (intros Z; apply Nz; rewrite Z; ring). assert (G2 yes <> 0) by (intros Z; apply N3; rewrite Z; ring). assert (G2 (obsA extra) <> 0) by (intros Z; apply Nz; rewrite Z; ring).
  field. auto.
Qed.
