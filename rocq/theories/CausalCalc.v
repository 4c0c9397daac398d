(** * CausalCalc: the rules of the do-calculus for networks. *)
From Coq Require Import List Bool Arith ZArith Lia String QArith Qcanon Permutation Relations.
From Verif Require Import Base QcX Digraph BbnModel SumOver BbnTables InferSpec InferProofs InferEngine InferOps InferMain CausalCore CausalThms CausalDo CausalSep CausalApi DsepSpec CausalTrail CausalBack CausalBackApi CalcSpec.
Import ListNotations.
Local Open Scope Qc_scope.
Local Open Scope list_scope.

(** ** Graphs with arrows taken out *)
Lemma only_vars k N : vars (only k N) = vars N.
Proof. unfold only, vars. rewrite map_map. apply map_ext. intros [v c]. auto. Qed.
Lemma only_states k N p : states_of (only k N) p = states_of N p.
Proof. unfold states_of, only. induction N as [|[v c] N IH]; auto. cbn [map find fst]. destruct (String.eqb v p); auto. Qed.
Lemma only_In k N v c' : In (v, c') (only k N) <-> exists c, In (v, c) N /\ c' = mkCpd (states c) (filter (fun p => k p v) (parents c)) (fun _ _ => 0).
Proof.
  unfold only. rewrite in_map_iff. split.
  - intros ([w c] & [= <- <-] & I). exists c. auto.
  - intros (c & I & ->). exists (v, c). auto.
Qed.
Lemma arrow_In N x y : arrow N x y <-> exists c, In (y, c) N /\ In x (parents c).
Proof. unfold arrow. rewrite <- parents_arrow. apply parents_of_In. Qed.
Lemma only_arrow k N x y : arrow (only k N) x y <-> arrow N x y /\ k x y = true.
Proof.
  rewrite !arrow_In. split.
  - intros (c' & I & P). apply only_In in I. destruct I as (c & I & ->). cbn [parents] in P. apply filter_In in P. destruct P. split; eauto.
  - intros ((c & I & P) & K). eexists. split; [apply only_In; exists c; split; [exact I|reflexivity]|]. cbn [parents]. apply filter_In. auto.
Qed.
Lemma path_arrows N N' x y : (forall a b, arrow N a b -> arrow N' a b) -> path (parent_arrows N) x y -> path (parent_arrows N') x y.
Proof. intros H. apply path_incl. intros [a b]. apply H. Qed.
Lemma only_shape k N : shape_ok N -> shape_ok (only k N).
Proof.
  intros SO. constructor.
  - rewrite only_vars. apply ok_vars; auto.
  - intros E. apply (ok_ne N SO). destruct N; [auto|discriminate].
  - intros v c' I. apply only_In in I. destruct I as (c & I & ->). apply (ok_states N SO v c I).
  - intros v c' I. apply only_In in I. destruct I as (c & I & ->). cbn [parents]. rewrite only_vars. destruct (ok_parents N SO v c I) as [P1 P2]. split; [apply NoDup_filter; auto|].
    intros p Hp. apply filter_In in Hp. apply P2. tauto.
  - intros x P. apply (ok_dag N SO x). eapply path_arrows; [|exact P]. intros a b A. apply only_arrow in A. tauto.
  - intros v c' s ps I _ _. apply only_In in I. destruct I as (c & I & ->). cbn. apply Qcle_refl.
Qed.

Lemma active_same N N' Z l : (forall x y, arrow N x y <-> arrow N' x y) -> active N Z l -> active N' Z l.
Proof.
  intros E. assert (Ep : forall x y, path (parent_arrows N) x y -> path (parent_arrows N') x y) by (intros; eapply path_arrows; [|eauto]; intros; apply E; auto).
  induction l as [|a l IH]; auto. destruct l as [|b l]; auto. intros (Ad & P & T). split; [rewrite <- !E; auto|]. split; [|auto].
  destruct l as [|c l]; auto. destruct P as [P1 P2]. split; rewrite <- !E; auto. intros Q. destruct (P1 Q) as (z & Hz & [->|Pz]); eauto.
Qed.
Lemma dsep_same N N' Z x y : (forall a b, arrow N a b <-> arrow N' a b) -> d_separated N Z x y -> d_separated N' Z x y.
Proof. intros E D l T A. apply (D l T). eapply active_same; [|exact A]. intros; symmetry; auto. Qed.
Lemma dsep_differ N Z x y : d_separated N Z x y -> x <> y.
Proof. intros D ->. apply (D [y]); cbn; auto. split; auto. constructor; [intros []|constructor]. Qed.

(** ** Interventions on several variables *)
Section Edit.
  Context (M : net) (k : string -> option dist).
  Context (SO : shape_ok M) (SO' : shape_ok (edited k M)) (CS : columns_sum_1 M) (CS' : columns_sum_1 (edited k M)).

  Lemma touching_edit A S : (forall v c, k v <> None -> In (v, c) M -> A v = true -> touches S (v, c) = false) ->
    filter (touches S) (keep A (edited k M)) = filter (touches S) (keep A M).
  Proof.
    clear. intros H. induction M as [|[w e] L IH]; auto. unfold edited, keep in *. cbn [map filter fst snd].
    specialize (IH (fun v c K I => H v c K (or_intror I))).
    destruct (k w) as [d|] eqn:Kw; cbn [fst].
    - destruct (A w) eqn:Aw; cbn [filter]; rewrite ?IH; auto.
      assert (T : touches S (w, e) = false) by (apply (H w e); auto; [congruence|left; auto]). rewrite T. unfold touches in T |- *. cbn [fst snd existsb fixed parents] in *. apply orb_false_elim in T. destruct T as [T _]. rewrite T. auto.
    - destruct (A w); cbn [filter]; rewrite ?IH; auto.
  Qed.

  Theorem same_edit obs u s : valid_obs M obs -> In u (vars M) -> ~ In u (map fst obs) ->
    (forall v, k v <> None -> relevant M (u :: map fst obs) v -> forall p, linked M (u :: map fst obs) (map fst obs) u p -> p <> v /\ ~ arrow M p v) ->
    Pr M (observed obs) <> 0 -> Pr (edited k M) (observed obs) <> 0 ->
    cond_prob (edited k M) obs u s = cond_prob M obs u s.
  Proof.
    intros VO Hu Nu H N1 N2. set (xs := u :: map fst obs) in *.
    assert (Uxs : In u xs) by (left; auto). destruct (split_net M xs (map fst obs) u SO Uxs Nu Hu) as (A & Sb & An & Rel & Su & Sl & SZ & Cl).
    assert (Ax : forall x, In x xs -> A x = true) by (intros x Hx; apply Rel; exists x; auto).
    assert (Ob : forall x, In x (map fst obs) -> In x (vars M) /\ A x = true).
    { intros x Hx. split; [|apply Ax; right; auto]. apply in_map_iff in Hx. destruct Hx as ([y z] & <- & Hx). apply (proj2 VO y z Hx). }
    assert (NT : forall v c, k v <> None -> In (v, c) M -> A v = true -> touches Sb (v, c) = false).
    { intros v c Kv Ic Av. destruct (touches Sb (v, c)) eqn:T; auto. exfalso. apply existsb_exists in T. destruct T as (p & Hp & Sp). cbn [fst snd] in Hp.
      destruct (H v Kv (proj1 (Rel v) Av) p (Sl p Sp)) as [Q1 Q2]. destruct Hp as [Hp|Hp]; [auto|]. apply Q2. apply arrow_In. eauto. }
    assert (An' : ancestral (edited k M) A).
    { intros w c p I Hw Hp. apply edited_In in I. destruct I as (c0 & I & ->). destruct (k w); [destruct Hp|]. apply (An w c0 p I Hw Hp). }
    assert (Cl' : forall w c x y, In (w, c) (edited k M) -> A w = true -> In x (w :: parents c) -> In y (w :: parents c) -> Sb x = true -> Sb y = true \/ In y (map fst obs)).
    { intros w c x y I Hw Hx Hy. apply edited_In in I. destruct I as (c0 & I & ->). destruct (k w); [|apply (Cl w c0 x y); auto].
      cbn [fixed parents] in Hx, Hy. apply (Cl w c0 x y); auto; [destruct Hx as [<-|[]]|destruct Hy as [<-|[]]]; left; auto. }
    assert (Ob' : forall x, In x (map fst obs) -> In x (vars (edited k M)) /\ A x = true) by (rewrite edited_vars; auto).
    destruct (factorise M SO CS obs A An Sb SZ Cl Ob) as (G2 & G). destruct (factorise _ SO' CS' obs A An' Sb SZ Cl' Ob') as (G2' & G').
    assert (Es : forall Q, side (edited k M) obs A Sb Q = side M obs A Sb Q).
    { intros Q. unfold side. rewrite touching_edit by auto. rewrite !keep_vars, edited_vars. apply sumover_dom. intros; apply edited_states. }
    rewrite edited_vars in G'. set (G1 := side M obs A Sb) in *.
    assert (LU : looks (fun x => In x (vars M) /\ A x = true /\ Sb x = true) (fun a => label_eqb (a u) s)) by (apply is_looks; auto).
    assert (LT : forall B, looks B (fun _ => true)) by (intros B a b _; auto).
    set (yes := fun _ : assign => true). set (us := fun a : assign => label_eqb (a u) s).
    assert (P1 : forall L, Pr L (observed obs) = Pr L (fun w => (fun a => yes a && (obsA obs a && yes a))%bool (at_ w))).
    { intros L. apply Pr_ext. intros w _. unfold yes. cbn [andb]. rewrite andb_true_r. auto. }
    assert (P2 : forall L, Pr_and L obs u s = Pr L (fun w => (fun a => us a && (obsA obs a && yes a))%bool (at_ w))).
    { intros L. apply Pr_ext. intros w _. unfold yes, us, is_. rewrite andb_true_r. apply andb_comm. }
    assert (E3 : Pr M (observed obs) = G1 yes * G2 yes) by (rewrite P1; apply (G yes yes (LT _) (LT _))).
    assert (E4 : Pr_and M obs u s = G1 us * G2 yes) by (rewrite P2; apply (G us yes LU (LT _))).
    assert (E5 : Pr (edited k M) (observed obs) = G1 yes * G2' yes) by (rewrite P1, (G' yes yes (LT _) (LT _)), Es; auto).
    assert (E6 : Pr_and (edited k M) obs u s = G1 us * G2' yes) by (rewrite P2, (G' us yes LU (LT _)), Es; auto).
    unfold cond_prob. destruct (Qc_eq_bool_spec (Pr M (observed obs)) 0) as [|_]; [congruence|]. destruct (Qc_eq_bool_spec (Pr (edited k M) (observed obs)) 0) as [|_]; [congruence|].
    rewrite E3 in N1. rewrite E5 in N2. rewrite E3, E4, E5, E6.
    assert (G1 yes <> 0) by (intros Z; apply N1; rewrite Z; ring). assert (G2 yes <> 0) by (intros Z; apply N1; rewrite Z; ring). assert (G2' yes <> 0) by (intros Z; apply N2; rewrite Z; ring).
    field. auto.
  Qed.

  (** What can be seen together with the values that an intervention sets can still be seen under it *)
  Lemma edited_worlds : all_worlds (edited k M) = all_worlds M.
  Proof.
    clear. induction M as [|[v c] L IH]; auto. unfold edited in *. cbn [map fst snd all_worlds].
    destruct (k v) as [d|]; cbn [all_worlds fixed states]; rewrite IH; auto.
  Qed.
  Lemma positive_edit obs : (forall v d, k v = Some d -> exists x, In (v, x) obs /\ weight_in d x <> 0) ->
    Pr M (observed obs) <> 0 -> Pr (edited k M) (observed obs) <> 0.
  Proof.
    intros K Nz Z. apply Nz. unfold Pr in *. rewrite edited_worlds in Z.
    assert (Nn : forall w, In w (filter (observed obs) (all_worlds M)) -> 0 <= joint (edited k M) w).
    { intros w Hw. apply filter_In in Hw. apply joint_nonneg; auto. rewrite edited_worlds. tauto. }
    rewrite (Qsum_ext _ (fun _ => 0)); [apply Qsum_zero|]. intros w Hw.
    pose proof (Qsum_zero_inv _ _ Nn Z w Hw) as J. apply filter_In in Hw. destruct Hw as [_ Ow].
    destruct (Qc_eq_dec (joint M w) 0) as [|Nj]; auto. exfalso. revert J. unfold joint, edited. rewrite Qprod_map. apply Qprod_nonzero. intros [v c] I. cbn [fst snd].
    destruct (k v) as [d|] eqn:Kv; cbn [fst snd fixed prob].
    - destruct (K v d Kv) as (x & Hx & Wx). unfold observed in Ow. rewrite forallb_forall in Ow. specialize (Ow _ Hx). cbn [fst snd] in Ow. destruct (label_eqb_spec (at_ w v) x) as [->|]; [auto|discriminate].
    - intros Q. apply Nj. unfold joint. apply (Qprod_zero _ _ (v, c) I). exact Q.
  Qed.
End Edit.

(** ** Variables held at a value *)
Definition held (M : net) (v : string) (x : label) : Prop :=
  exists c d, In (v, c) M /\ truncated M v d = M /\ In x (states c) /\ (forall y, In y (states c) -> y <> x -> weight_in d y = 0).

Lemma held_cond M xs obs u s : shape_ok M -> (forall v x, In (v, x) xs -> held M v x) -> In u (vars M) -> (forall y, In y (map fst obs) -> In y (vars M)) ->
  cond_prob M (xs ++ obs) u s = cond_prob M obs u s.
Proof.
  intros SO H Hu Ho. induction xs as [|[v x] xs IH]; auto. cbn [app]. rewrite <- IH by (intros; apply H; right; auto).
  destruct (H v x (or_introl eq_refl)) as (c & d & I & E & Hx & W). symmetry. rewrite <- E at 1. rewrite <- E at 2. apply (point_cond M v c d); auto; [rewrite E; auto|].
  intros y Hy. rewrite map_app in Hy. apply in_app_or in Hy. destruct Hy as [Hy|Hy]; auto. apply in_map_iff in Hy. destruct Hy as ([y' z] & <- & Hy).
  destruct (H y' z (or_intror Hy)) as (c' & d' & I' & _). apply (in_vars _ _ _ I').
Qed.
Lemma cond_perm M obs obs' u s : Permutation obs obs' -> cond_prob M obs u s = cond_prob M obs' u s.
Proof.
  intros P. assert (E : forall w, observed obs w = observed obs' w).
  { intros w. unfold observed. induction P; cbn [forallb]; auto; [congruence| |congruence]. rewrite !andb_assoc. f_equal. apply andb_comm. }
  unfold cond_prob, Pr_and. rewrite (Pr_ext M (observed obs) (observed obs')) by auto. rewrite (Pr_ext M (fun w => observed obs w && is_ u s w)%bool (fun w => observed obs' w && is_ u s w)%bool); auto.
  intros w _. rewrite E. auto.
Qed.
Lemma cond_positive M obs u s : cond_prob M obs u s <> 0 -> Pr M (observed obs) <> 0.
Proof. unfold cond_prob. destruct (Qc_eq_bool_spec (Pr M (observed obs)) 0); auto. Qed.

(** ** Adding and dropping an intervention *)
Section Drop.
  Context (M : net) (SO : shape_ok M) (W Z ZW : list string) (u : string).
  Context (HZ : forall z, In z ZW <-> In z Z /\ ~ exists w, In w W /\ path (parent_arrows M) z w).
  Context (NW : forall z, In z Z -> ~ In z W) (Nu : ~ In u W).
  Local Notation M3 := (without_into ZW M).
  Context (D : forall z, In z Z -> d_separated M3 W z u).

  Lemma into_arrow X N x y : arrow (without_into X N) x y <-> arrow N x y /\ ~ In y X.
  Proof.
    unfold without_into. rewrite only_arrow, negb_true_iff. split; intros [A B]; split; auto.
    - intros Q. apply smem_In in Q. congruence.
    - destruct (smem y X) eqn:E; auto. apply smem_In in E. tauto.
  Qed.
  Lemma down_in x y : path (parent_arrows M) x y -> (exists z, In z ZW /\ path (parent_arrows M3) z y) \/ path (parent_arrows M3) x y \/ In y ZW.
  Proof.
    induction 1 as [x y A|x y z A P IH].
    - destruct (in_dec string_dec y ZW); auto. right. left. apply path_one. apply into_arrow. auto.
    - destruct IH as [IH|[IH|IH]]; auto. destruct (in_dec string_dec y ZW); [left; eauto|]. right. left. eapply path_step; [apply into_arrow; split; [exact A|auto]|auto].
  Qed.
  Lemma in_M : forall x y, path (parent_arrows M3) x y -> path (parent_arrows M) x y.
  Proof. intros x y. apply path_arrows. intros a b A. apply into_arrow in A. tauto. Qed.

  Lemma zw_irrelevant z : In z ZW -> ~ relevant M (u :: W) z.
  Proof.
    intros Hz (y & Hy & Q).
    assert (Pz : path (parent_arrows M) z u).
    { apply HZ in Hz. destruct Hz as [Hz Nz]. destruct Hy as [<-|Hy], Q as [->|Q]; auto.
      - exfalso. apply (dsep_differ _ _ _ _ (D u Hz)). auto.
      - exfalso. apply (NW y Hz Hy).
      - exfalso. apply Nz. eauto. }
    assert (K : exists z, In z ZW /\ path (parent_arrows M3) z u).
    { destruct (down_in z u Pz) as [K|[K|K]]; eauto. exfalso. apply HZ in K. destruct K as [K _]. apply (dsep_differ _ _ _ _ (D u K)). auto. }
    clear z Hz y Hy Q Pz. destruct K as (z & Hz & P). pose proof (proj1 (HZ z) Hz) as [Zz Nz].
    assert (SO3 : shape_ok M3) by (apply only_shape; auto).
    destruct (down_from M3 SO3 W z u P) as (b & m & _ & Act & La).
    { intros (w & Hw & [->|Q]); [apply (NW w Zz Hw)|]. apply Nz. exists w. split; auto. apply in_M. auto. }
    destruct (shorten M3 SO3 W [] (z :: b :: m) Act) as (l' & ND & A & H & La' & _). apply (D z Zz l'); auto. split; auto. split; auto. rewrite La'.
    change (last (b :: m) z = u). rewrite <- La. apply last_any.
  Qed.
  Lemma keep_arrow x y : relevant M (u :: W) y -> arrow M x y -> arrow M3 x y.
  Proof. intros R A. apply into_arrow. split; auto. intros Q. apply (zw_irrelevant y Q R). Qed.
  Lemma keep_relevant x : relevant M (u :: W) x -> relevant M3 (u :: W) x.
  Proof.
    intros (y & Hy & [->|P]); exists y; split; auto. right. assert (R : relevant M (u :: W) y) by (exists y; auto). clear Hy.
    induction P as [x y A|x y z A P IH]; [apply path_one; apply keep_arrow; auto|].
    eapply path_step; [apply keep_arrow; [|exact A]|auto]. apply (relevant_up M _ y z); auto.
  Qed.
  Lemma keep_linked x y : linked M (u :: W) W x y -> linked M3 (u :: W) W x y.
  Proof.
    intros L. unfold linked in *. induction L as [x y [(R1 & R2 & Q) Ny]| |]; [|apply rt_refl|eapply rt_trans; eauto].
    apply rt_step. split; auto. split; [apply keep_relevant; auto|]. split; [apply keep_relevant; auto|]. destruct Q as [Q|[Q|(z & Rz & Q1 & Q2)]].
    - left. apply keep_arrow; auto.
    - right. left. apply keep_arrow; auto.
    - right. right. exists z. split; [apply keep_relevant; auto|]. split; apply keep_arrow; auto.
  Qed.
  Theorem drop_far z p : In z Z -> relevant M (u :: W) z -> linked M (u :: W) W u p -> p <> z /\ ~ arrow M p z.
  Proof.
    intros Hz R L. assert (K : ~ linked M (u :: W) W u z).
    { intros Q. apply keep_linked in Q. apply (linked_dsep M3 (only_shape _ _ SO) W [z] u Nu) with (x := z); [intros t [<-|[]]; auto|left; auto|].
      eapply linked_mono; [|exact Q]. intros t (y & Hy & H). exists y. split; auto. cbn in *. tauto. }
    split; [intros ->; auto|]. intros A. apply K. unfold linked in *. eapply rt_trans; [exact L|]. apply rt_step. split; [|apply NW; auto]. split; [|split; auto].
    apply (relevant_up M _ p z); auto. apply path_one. exact A.
  Qed.
End Drop.

(** ** Doing and seeing *)
Section Swap.
  Context (M : net) (SO : shape_ok M) (W Z : list string) (u : string).
  Context (Nu : ~ In u W).
  Local Notation M2 := (without_from Z M).
  Context (D : forall z, In z Z -> d_separated M2 W z u).

  Lemma from_arrow X N x y : arrow (without_from X N) x y <-> arrow N x y /\ ~ In x X.
  Proof.
    unfold without_from. rewrite only_arrow, negb_true_iff. split; intros [A B]; split; auto.
    - intros Q. apply smem_In in Q. congruence.
    - destruct (smem x X) eqn:E; auto. apply smem_In in E. tauto.
  Qed.
  Lemma first_hit x y : path (parent_arrows M) x y -> ~ In x Z -> path (parent_arrows M2) x y \/ exists z, In z Z /\ path (parent_arrows M2) x z.
  Proof.
    induction 1 as [x y A|x y z A P IH]; intros Nx.
    - left. apply path_one. apply from_arrow. auto.
    - assert (A2 : arrow M2 x y) by (apply from_arrow; auto). destruct (in_dec string_dec y Z) as [Hy|Hy]; [right; exists y; split; auto; apply path_one; auto|].
      destruct (IH Hy) as [Q|(w & Hw & Q)]; [left|right; exists w; split; auto]; eapply path_step; [exact A2|exact Q|exact A2|exact Q].
  Qed.
  Lemma u_out : ~ In u Z.
  Proof. intros H. apply (dsep_differ _ _ _ _ (D u H)). auto. Qed.
  Lemma unreached : ~ reached M2 W Z u.
  Proof.
    intros (z & Hz & l & Act & La). destruct (shorten M2 (only_shape _ _ SO) W [] (z :: l) Act) as (l' & ND & A & H & La' & _).
    apply (D z Hz l'); auto. split; auto. split; auto. rewrite La'. auto.
  Qed.

  Lemma off_set n : forall a l, (List.length l <= n)%nat -> ~ In a Z -> active M (Z ++ W) (a :: l) -> last (a :: l) a = u ->
    reached M2 W Z u \/ (active M2 W (a :: l) /\ forall z, In z Z -> ~ In z (a :: l)).
  Proof.
    pose proof (only_shape (fun x _ => negb (smem x Z)) M SO) as SO2. change (shape_ok M2) in SO2.
    induction n as [|n IH]; intros a l Hn Na Act La; (destruct l as [|c l]; [right; split; [cbn; auto|intros z Hz [<-|[]]; auto]|]); cbn [List.length] in Hn; [lia|].
    assert (La' : last (c :: l) c = u) by (rewrite <- La; change (last (c :: l) c = last (c :: l) a); apply last_any).
    pose proof (active_pair _ _ _ _ _ Act) as Ad. pose proof (active_tail _ _ _ _ Act) as Ac.
    destruct (in_dec string_dec c Z) as [Hc|Nc].
    - destruct l as [|d l]; [cbn in La'; subst c; exfalso; apply (u_out Hc)|].
      assert (Ps : passes M (Z ++ W) a c d) by (cbn in Act; tauto).
      assert (Adc : arrow M d c).
      { destruct (arrow_dec M d c); auto. exfalso. destruct Ps as [_ Q]. apply Q; [tauto|apply in_app_iff; auto]. }
      assert (Ld : last (d :: l) d = u) by (rewrite <- La'; change (last (d :: l) d = last (d :: l) c); apply last_any).
      assert (Nd : ~ In d Z /\ (l = [] \/ ~ In d W)).
      { destruct l as [|e l]; [cbn in Ld; subst d; split; [apply u_out|auto]|]. assert (Pd : passes M (Z ++ W) c d e) by (cbn in Ac; tauto).
        destruct Pd as [_ Pd]. assert (Q : ~ In d (Z ++ W)) by (apply Pd; intros [Q _]; apply (arrow_asym M SO _ _ Adc Q)). rewrite in_app_iff in Q. tauto. }
      destruct Nd as [Nd Nd']. cbn [List.length] in Hn. pose proof (active_tail _ _ _ _ Ac) as Acd.
      destruct (IH d l) as [B|[A1 A2]]; auto; [lia|]. left. exists c. split; auto. exists (d :: l). split; [|rewrite <- Ld; change (last (d :: l) c = last (d :: l) d); apply last_any].
      apply active_cons; auto; [right; apply from_arrow; auto|]. intros e l' ->. apply passes_through; [intros [Q _]; apply from_arrow in Q; tauto|]. destruct Nd'; [discriminate|auto].
    - destruct (IH c l) as [B|[A1 A2]]; auto; [lia|].
      assert (Ad2 : arrow M2 a c \/ arrow M2 c a) by (rewrite !from_arrow; tauto).
      assert (Go : (forall d l', l = d :: l' -> passes M2 W a c d) -> reached M2 W Z u \/ active M2 W (a :: c :: l) /\ (forall z, In z Z -> ~ In z (a :: c :: l))).
      { intros Q. right. split; [apply active_cons; auto|]. intros z Hz [<-|Q']; auto. apply (A2 z Hz Q'). }
      destruct l as [|d l]; [apply Go; discriminate|].
      assert (Nd : ~ In d Z) by (intros Q; apply (A2 d Q); right; left; auto).
      assert (Ps : passes M (Z ++ W) a c d) by (cbn in Act; tauto). destruct Ps as [P1 P2].
      assert (E1 : arrow M2 a c <-> arrow M a c) by (rewrite from_arrow; tauto). assert (E2 : arrow M2 d c <-> arrow M d c) by (rewrite from_arrow; tauto).
      destruct (arrow_dec M a c) as [Aa|Aa].
      2:{ apply Go. intros d' l' [= <- <-]. apply passes_through; [tauto|]. intros Q. apply P2; [tauto|apply in_app_iff; auto]. }
      destruct (arrow_dec M d c) as [Ae|Ae].
      2:{ apply Go. intros d' l' [= <- <-]. apply passes_through; [tauto|]. intros Q. apply P2; [tauto|apply in_app_iff; auto]. }
      destruct (relevant_dec M2 SO2 W c) as [Rz|Rz].
      { apply Go. intros d' l' [= <- <-]. apply passes_collider; [tauto|tauto|auto]. }
      left. destruct P1 as (w & Hw & Q); [auto|]. apply in_app_or in Hw.
      assert (K : exists z, In z Z /\ path (parent_arrows M2) c z).
      { destruct Q as [->|Q]; [destruct Hw as [Hw|Hw]; [tauto|exfalso; apply Rz; exists c; auto]|].
        destruct (first_hit c w Q Nc) as [Q'|Q']; auto. destruct Hw as [Hw|Hw]; [eauto|exfalso; apply Rz; exists w; auto]. }
      destruct K as (z & Hz & P). destruct (down_walk M2 SO2 W c z (d :: l) P Rz A1) as (b & m & Ab & A3 & L3 & _).
      exists z. split; auto. exists (b :: m). split; auto. rewrite <- La', <- L3. change (last (b :: m) z = last (b :: m) b). apply last_any.
  Qed.

  Theorem swap_far z p : In z Z -> linked M (u :: Z ++ W) (Z ++ W) u p -> p <> z /\ ~ arrow M p z.
  Proof.
    intros Hz L. assert (NU : ~ In u (Z ++ W)) by (rewrite in_app_iff; intros [Q|Q]; [apply (u_out Q)|auto]).
    assert (Np : ~ In p (Z ++ W)) by (apply clos_rt_rtn1 in L; inversion L; subst; tauto).
    split; [intros ->; apply Np, in_app_iff; auto|]. intros A. apply unreached.
    assert (L2 : linked M (u :: [p] ++ Z ++ W) (Z ++ W) u p).
    { eapply linked_mono; [|exact L]. intros x (y & Hy & Q). exists y. split; auto. cbn in *. tauto. }
    assert (Wk : walk M (Z ++ W) u p).
    { destruct (linked_walk M SO (Z ++ W) [p] u p NU L2) as [(t & [<-|[]] & Wk)|[Wk _]]; auto. }
    destruct Wk as (l & Act & La). rewrite in_app_iff in Np. destruct (off_set (List.length l) p l) as [B|[A1 A2]]; auto.
    exists z. split; auto. exists (p :: l). split; [|rewrite <- La; change (last (p :: l) z = last (p :: l) p); apply last_any].
    apply active_cons; auto; [right; apply from_arrow; auto|]. intros c l' _. apply passes_through; [intros [Q _]; apply from_arrow in Q; tauto|tauto].
  Qed.
End Swap.
