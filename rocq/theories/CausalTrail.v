(** * CausalTrail: variables linked in the moral graph are joined by an active trail. *)
From Coq Require Import List Bool Arith Lia String Relations.
From Verif Require Import Base Digraph InferSpec InferProofs CausalCore CausalThms CausalSep DsepSpec.
Import ListNotations.
Local Open Scope list_scope.

Lemma last_app {X} (l m : list X) x d : last (l ++ x :: m) d = last (x :: m) d.
Proof. induction l as [|a l IH]; auto. rewrite <- app_comm_cons. rewrite <- IH. destruct l; auto. Qed.
Lemma last_any {X} (x : X) l d d' : last (x :: l) d = last (x :: l) d'.
Proof. revert x. induction l as [|y l IH]; intros x; auto. change (last (y :: l) d = last (y :: l) d'). apply IH. Qed.

Section Graph.
  Context (N : net) (SO : shape_ok N).
  Local Notation es := (parent_arrows N).
  Local Notation arr := (arrow N).

  Lemma arrow_dec x y : {arr x y} + {~ arr x y}.
  Proof. unfold arrow. apply in_dec. intros [a b] [c d]. destruct (string_dec a c), (string_dec b d); subst; auto; right; congruence. Qed.
  Lemma no_loop x : ~ path es x x.
  Proof. apply (ok_dag N SO). Qed.
  Lemma arrow_asym x y : arr x y -> ~ arr y x.
  Proof. intros A B. apply (no_loop x). eapply path_step; [exact A|]. apply path_one. exact B. Qed.
  Lemma relevant_dec Z x : relevant N Z x \/ ~ relevant N Z x.
  Proof.
    destruct (ancestors N Z SO) as (A & An & Ax & Ay). destruct (A x) eqn:E; [left; apply Ay; auto|right].
    intros (y & Hy & [->|P]); [rewrite (Ax y Hy) in E; discriminate|]. rewrite (ancestral_path N A x y An P (Ax y Hy)) in E. discriminate.
  Qed.
  Lemma relevant_up Z x y : path es x y -> relevant N Z y -> relevant N Z x.
  Proof. intros P (z & Hz & [->|Q]); exists z; split; auto. right. eapply path_trans; eauto. Qed.
  Lemma relevant_in (Z : list string) x : In x Z -> relevant N Z x.
  Proof. intros H. exists x. auto. Qed.
  Lemma relevant_obs Z x : relevant N Z x -> exists z, In z Z /\ (z = x \/ path es x z).
  Proof. intros (z & Hz & [->|P]); exists z; auto. Qed.
  Lemma obs_relevant Z x : (exists z, In z Z /\ (z = x \/ path es x z)) -> relevant N Z x.
  Proof. intros (z & Hz & [->|P]); [exists x|exists z]; auto. Qed.

  Lemma passes_through Z a b c : ~ (arr a b /\ arr c b) -> ~ In b Z -> passes N Z a b c.
  Proof. intros H I. split; tauto. Qed.
  Lemma passes_collider Z a b c : arr a b -> arr c b -> relevant N Z b -> passes N Z a b c.
  Proof. intros H I J. split; [intros _; apply relevant_obs; auto|tauto]. Qed.

  Lemma active_tail Z a l : active N Z (a :: l) -> active N Z l.
  Proof. destruct l as [|b l]; cbn; tauto. Qed.
  Lemma active_suffix Z l m : active N Z (l ++ m) -> active N Z m.
  Proof. induction l as [|a l IH]; auto. rewrite <- app_comm_cons. intros H. apply IH, (active_tail Z a _ H). Qed.
  Lemma active_prefix Z l m : active N Z (l ++ m) -> active N Z l.
  Proof.
    induction l as [|a l IH]; [cbn; auto|]. rewrite <- app_comm_cons. intros H. pose proof (IH (active_tail _ _ _ H)) as T. destruct l as [|b l]; [cbn; auto|].
    destruct H as (H1 & H2 & _). split; auto. split; auto. destruct l; cbn; auto.
  Qed.
  Lemma active_triple Z l a b c m : active N Z (l ++ a :: b :: c :: m) -> passes N Z a b c.
  Proof. intros H. apply active_suffix in H. cbn in H. tauto. Qed.
  Lemma active_pair Z a b l : active N Z (a :: b :: l) -> arr a b \/ arr b a.
  Proof. cbn. tauto. Qed.
  Lemma active_cons Z a b l : arr a b \/ arr b a -> (forall c l', l = c :: l' -> passes N Z a b c) -> active N Z (b :: l) -> active N Z (a :: b :: l).
  Proof. intros H P T. split; auto. split; auto. destruct l; auto. eapply P; eauto. Qed.

  (** ** Going down from a variable without observed descendants *)
  Lemma down_from Z x w : path es x w -> ~ relevant N Z x -> exists y m, arr x y /\ active N Z (x :: y :: m) /\ last (y :: m) y = w.
  Proof.
    induction 1 as [x y H|x y z H P IH]; intros Nr.
    - exists y, []. cbn. repeat split; auto.
    - destruct IH as (b & m & Ab & Act & La); [intros Q; apply Nr; eapply relevant_up; [apply path_one; exact H|auto]|].
      exists y, (b :: m). split; auto. split.
      + apply active_cons; auto. intros c l' [= -> ->]. apply passes_through; [intros [_ Q]; apply (arrow_asym _ _ Ab Q)|].
        intros Q. apply Nr. eapply relevant_up; [apply path_one; exact H|apply relevant_in; auto].
      + rewrite <- La. change (last (b :: m) y = last (b :: m) b). apply last_any.
  Qed.
  (** the steps on the way have a path to the end *)
  Lemma down_to Z x w : path es x w -> forall l, ~ relevant N Z x -> active N Z (x :: l) ->
    exists b m, arr b w /\ active N Z (w :: b :: m ++ x :: l) /\ (forall y, In y (b :: m) -> y = x \/ path es y w) \/
      (arr x w /\ active N Z (w :: x :: l)).
  Proof.
    induction 1 as [x y H|x y z H P IH]; intros l Nr Act.
    - exists x, []. right. split; auto. apply active_cons; auto. intros c l' _. apply passes_through; [intros [Q _]; apply (arrow_asym _ _ H Q)|intros Q; apply Nr, relevant_in; auto].
    - assert (Act' : active N Z (y :: x :: l)).
      { apply active_cons; auto. intros c l' _. apply passes_through; [intros [Q _]; apply (arrow_asym _ _ H Q)|intros Q; apply Nr, relevant_in; auto]. }
      destruct (IH (x :: l)) as (b & m & [(Ab & A2 & Pm)|(Ab & A2)]); auto; [intros Q; apply Nr; eapply relevant_up; [apply path_one; exact H|auto]| |].
      + exists b, (m ++ [y]). left. split; auto. split; [rewrite <- app_assoc; exact A2|].
        intros q Hq. rewrite app_comm_cons in Hq. apply in_app_or in Hq. destruct Hq as [Hq|[<-|[]]]; auto. destruct (Pm q Hq) as [->|]; auto.
      + exists y, []. left. split; auto. split; auto. intros q [<-|[]]. right. auto.
  Qed.
  Lemma down_walk Z x w l : path es x w -> ~ relevant N Z x -> active N Z (x :: l) ->
    exists b m, arr b w /\ active N Z (w :: b :: m) /\ last (b :: m) b = last (x :: l) x /\ (forall y, In y (b :: m) -> In y l \/ path es y w).
  Proof.
    intros P Nr Act. destruct (down_to Z x w P l Nr Act) as (b & m & [(Ab & A2 & Pm)|(Ab & A2)]).
    - exists b, (m ++ x :: l). split; auto. split; auto. split.
      + rewrite app_comm_cons, last_app. apply last_any.
      + intros y Hy. rewrite app_comm_cons in Hy. apply in_app_or in Hy. destruct Hy as [Hy|[<-|Hy]]; auto. destruct (Pm y Hy) as [->|]; auto.
    - exists x, l. split; auto. split; auto. split; auto. intros y [<-|Hy]; auto.
  Qed.

  (** ** Moral links become active walks *)
  Section Walk.
    Context (Z T : list string) (u : string).
    Definition walk (x : string) : Prop := exists l, active N Z (x :: l) /\ last (x :: l) x = u.
    Definition reached : Prop := exists t, In t T /\ walk t.

    Lemma walk_on x y l : active N Z (x :: l) -> last (x :: l) x = u -> arr y x \/ arr x y -> (forall a l', l = a :: l' -> passes N Z y x a) -> walk y.
    Proof. intros A La Ad P. exists (x :: l). split; [apply active_cons; auto|]. rewrite <- La. change (last (x :: l) y = last (x :: l) x). apply last_any. Qed.

    Lemma extend x y l : active N Z (x :: l) -> last (x :: l) x = u -> arr y x \/ arr x y -> relevant N (u :: T ++ Z) x ->
      (forall a l', l = a :: l' -> ~ (arr y x /\ arr a x) -> ~ In x Z) -> reached \/ walk y.
    Proof.
      intros Act La Ad Rx Nz. destruct l as [|a l].
      { right. apply (walk_on x y []); auto. discriminate. }
      destruct (arrow_dec y x) as [Ay|Ay]; [destruct (arrow_dec a x) as [Aa|Aa]|].
      2,3: right; apply (walk_on x y (a :: l)); auto; intros a' l' [= <- <-]; apply passes_through; [tauto|apply (Nz a l); tauto].
      destruct (relevant_dec Z x) as [Rz|Rz].
      { right. apply (walk_on x y (a :: l)); auto. intros a' l' [= <- <-]. apply passes_collider; auto. }
      destruct Rx as (w & Hw & [->|P]).
      - destruct Hw as [Hw|Hw].
        + right. apply (walk_on w y []); cbn; auto. discriminate.
        + apply in_app_or in Hw. destruct Hw as [Hw|Hw]; [|exfalso; apply Rz, relevant_in; auto]. left. exists w. split; auto. exists (a :: l). auto.
      - destruct Hw as [Hw|Hw].
        + right. destruct (down_from Z x w P Rz) as (b & m & Ab & A2 & L2). apply (walk_on x y (b :: m)); auto.
          * rewrite Hw, <- L2. change (last (b :: m) x = last (b :: m) b). apply last_any.
          * intros a' l' [= <- <-]. apply passes_through; [intros [_ Q]; apply (arrow_asym _ _ Ab Q)|intros Q; apply Rz, relevant_in; auto].
        + apply in_app_or in Hw. destruct Hw as [Hw|Hw]; [|exfalso; apply Rz; exists w; auto].
          left. exists w. split; auto. destruct (down_walk Z x w (a :: l) P Rz Act) as (b & m & Ab & A2 & L2 & _). exists (b :: m). split; auto.
          rewrite <- La, <- L2. change (last (b :: m) w = last (b :: m) b). apply last_any.
    Qed.

    Lemma moral_walk x y : moral N (u :: T ++ Z) x y -> ~ In x Z -> walk x -> reached \/ walk y.
    Proof.
      intros (Rx & Ry & M) Nx (l & Act & La). destruct M as [M|[M|(z & Rz & Mx & My)]].
      - apply (extend x y l); auto.
      - apply (extend x y l); auto.
      - assert (A2 : active N Z (z :: x :: l)).
        { apply active_cons; [right; exact Mx| |exact Act]. intros c l' _. apply passes_through; auto. intros [Q _]. apply (arrow_asym _ _ Mx Q). }
        apply (extend z y (x :: l)); auto.
        + rewrite <- La. change (last (x :: l) z = last (x :: l) x). apply last_any.
        + intros a l' [= <- <-] Q. exfalso. apply Q. split; auto.
    Qed.

    Lemma linked_walk x : ~ In u Z -> linked N (u :: T ++ Z) Z u x -> reached \/ (walk x /\ ~ In x Z).
    Proof.
      intros Nu L. apply clos_rt_rtn1 in L. induction L as [|x y [M Ny] L IH].
      - right. split; auto. exists []. cbn. auto.
      - destruct IH as [IH|[W Nx]]; auto. destruct (moral_walk x y M Nx W); auto.
    Qed.
  End Walk.

  (** ** A walk that visits a variable twice can be cut short *)
  Lemma follow Z x y l : active N Z (x :: y :: l) -> arr x y -> relevant N Z x \/ path es x (last (y :: l) y).
  Proof.
    revert x y. induction l as [|c l IH]; intros x y Act A; [right; apply path_one; auto|].
    destruct (arrow_dec c y) as [Ac|Ac].
    - left. eapply relevant_up; [apply path_one; exact A|]. apply obs_relevant. destruct Act as (_ & [P _] & _). apply P. auto.
    - pose proof (active_tail _ _ _ Act) as A2. destruct (active_pair _ _ _ _ A2) as [Ay|]; [|tauto]. destruct (IH y c A2 Ay) as [Q|Q].
      + left. eapply relevant_up; [apply path_one; exact A|auto].
      + right. eapply path_step; [exact A|]. change (path es y (last (c :: l) y)). rewrite (last_any c l y c). auto.
  Qed.

  Lemma straddle Z a x l2 l3 : active N Z (a :: x :: l2 ++ x :: l3) -> active N Z (a :: x :: l3).
  Proof.
    intros Act. pose proof (active_pair _ _ _ _ Act) as Ad. pose proof (active_tail _ _ _ Act) as A1.
    assert (A3 : active N Z (x :: l3)) by (apply (active_suffix Z (x :: l2)); exact A1).
    apply active_cons; auto. intros c l' ->.
    destruct l2 as [|y l2].
    { exfalso. destruct (active_pair _ _ _ _ A1) as [Q|Q]; apply (no_loop x), path_one, Q. }
    assert (P1 : passes N Z a x y) by (cbn in Act; tauto).
    assert (P2 : exists k, passes N Z k x c).
    { destruct (exists_last (l := y :: l2)) as (q & k & Eq); [discriminate|]. exists k. apply (active_triple Z (x :: q) k x c l').
      rewrite Eq in A1. rewrite <- app_assoc in A1. exact A1. }
    destruct P2 as (k & P2). destruct P1 as [P1 P1'], P2 as [P2 P2'].
    destruct (arrow_dec a x) as [Aa|Aa]; [|apply passes_through; tauto]. destruct (arrow_dec c x) as [Ac|Ac]; [|apply passes_through; tauto].
    apply passes_collider; auto. destruct (arrow_dec y x) as [Ay|Ay]; [apply obs_relevant; auto|].
    assert (Axy : arr x y) by (destruct (active_pair _ _ _ _ A1); tauto).
    assert (A4 : active N Z (x :: y :: l2 ++ [x])).
    { apply (active_prefix Z _ (c :: l')). cbn [app]. rewrite <- app_assoc. exact A1. }
    destruct (follow Z x y (l2 ++ [x]) A4 Axy) as [Q|Q]; auto. exfalso. rewrite app_comm_cons, last_app in Q. apply (no_loop x). exact Q.
  Qed.
  Lemma cut Z l1 x l2 l3 : active N Z (l1 ++ x :: l2 ++ x :: l3) -> active N Z (l1 ++ x :: l3).
  Proof.
    induction l1 as [|a l1 IH]; intros Act.
    - apply (active_suffix Z (x :: l2)). exact Act.
    - destruct l1 as [|b l1]; [apply (straddle Z a x l2); exact Act|].
      pose proof (IH (active_tail _ _ _ Act)) as T. rewrite <- !app_comm_cons in *. destruct Act as (H1 & H2 & _). split; auto. split; auto. destruct l1; cbn in *; auto.
  Qed.
  Lemma dup_or (l : list string) : NoDup l \/ exists l1 x l2 l3, l = l1 ++ x :: l2 ++ x :: l3.
  Proof.
    induction l as [|a l [IH|(l1 & x & l2 & l3 & ->)]].
    - left. constructor.
    - destruct (in_dec string_dec a l) as [H|H]; [|left; constructor; auto]. right. apply in_split in H. destruct H as (l2 & l3 & ->). exists [], a, l2, l3. auto.
    - right. exists (a :: l1), x, l2, l3. auto.
  Qed.
  Lemma shorten Z p l : active N Z (p ++ l) -> exists l', NoDup l' /\ active N Z (p ++ l') /\ hd_error l' = hd_error l /\ (forall d, last l' d = last l d) /\ incl l' l.
  Proof.
    remember (List.length l) as n eqn:En. assert (Hn : (List.length l <= n)%nat) by lia. clear En. revert l Hn. induction n as [|n IH]; intros l Hn Act.
    - destruct l; [|cbn in Hn; lia]. exists []. repeat split; auto. constructor. apply incl_refl.
    - destruct (dup_or l) as [ND|(l1 & x & l2 & l3 & ->)]; [exists l; repeat split; auto; apply incl_refl|].
      destruct (IH (l1 ++ x :: l3)) as (l' & ND & A & H & La & Inc).
      + rewrite !app_length in *. cbn [List.length] in *. rewrite app_length in Hn. cbn [List.length] in Hn. lia.
      + rewrite app_assoc in *. apply (cut Z _ x l2). exact Act.
      + exists l'. split; auto. split; auto. split; [rewrite H; destruct l1; auto|]. split.
        * intros d. rewrite La, !last_app. rewrite app_comm_cons, last_app. auto.
        * intros y Hy. apply Inc in Hy. apply in_app_or in Hy. apply in_app_iff. destruct Hy as [Hy|Hy]; auto. right. right. apply in_app_iff. auto.
  Qed.

  Theorem linked_dsep Z T u : ~ In u Z -> (forall t, In t T -> d_separated N Z t u) -> forall x, In x T -> ~ linked N (u :: T ++ Z) Z u x.
  Proof.
    intros Nu D x Hx L.
    assert (R : reached Z T u) by (destruct (linked_walk Z T u x Nu L) as [R|[W _]]; auto; exists x; auto).
    destruct R as (t & Ht & l & Act & La). destruct (shorten Z [] (t :: l) Act) as (l' & ND & A & H & La' & _).
    apply (D t Ht l'); auto. split; auto. split; auto. rewrite La'. auto.
  Qed.

  (** ** Back-door walks *)
  Section Back.
    Context (Z : list string) (v u : string) (Nvu : u <> v).
    Context (Nd : forall z, In z Z -> z <> v /\ ~ path es v z).
    Definition back_walk : Prop := exists b m, arr b v /\ active N Z (v :: b :: m) /\ ~ In v (b :: m) /\ last (b :: m) b = u.

    Lemma v_free : ~ relevant N Z v.
    Proof. intros (z & Hz & [->|P]); destruct (Nd z Hz); auto. Qed.

    Lemma off_v n : forall a l, (List.length l <= n)%nat -> a <> v -> active N (v :: Z) (a :: l) -> last (a :: l) a = u ->
      back_walk \/ (active N Z (a :: l) /\ ~ In v (a :: l)).
    Proof.
      induction n as [|n IH]; intros a l Hn Na Act La; (destruct l as [|c l]; [right; cbn; intuition|]); cbn [List.length] in Hn; [lia|].
      assert (La' : last (c :: l) c = u) by (rewrite <- La; change (last (c :: l) c = last (c :: l) a); apply last_any).
      pose proof (active_pair _ _ _ _ Act) as Ad. pose proof (active_tail _ _ _ Act) as Ac.
      destruct (string_dec c v) as [->|Nc].
      - destruct l as [|d l]; [cbn in La'; congruence|].
        assert (Ps : passes N (v :: Z) a v d) by (cbn in Act; tauto).
        assert (Adv : arr d v).
        { destruct (arrow_dec d v); auto. exfalso. destruct Ps as [_ Q]. apply Q; [tauto|left; auto]. }
        assert (Nd' : d <> v) by (intros ->; apply (no_loop v), path_one, Adv).
        cbn [List.length] in Hn. pose proof (active_tail _ _ _ Ac) as Acd.
        assert (Ld : last (d :: l) d = u) by (rewrite <- La'; change (last (d :: l) d = last (d :: l) v); apply last_any).
        destruct (IH d l) as [B|[A1 A2]]; auto; [lia|]. left. exists d, l. split; auto. split; [|split; auto].
        apply active_cons; auto. intros e l' ->. apply passes_through; [intros [Q _]; apply (arrow_asym _ _ Adv Q)|].
        intros Q. assert (P2 : passes N (v :: Z) v d e) by (cbn in Ac; tauto). destruct P2 as [_ P2]. apply P2; [intros [Q' _]; apply (arrow_asym _ _ Adv Q')|right; auto].
      - destruct (IH c l) as [B|[A1 A2]]; auto; [lia|].
        destruct l as [|d l].
        { right. split; [apply active_cons; auto; discriminate|]. intros [Q|Q]; auto. }
        assert (Ps : passes N (v :: Z) a c d) by (cbn in Act; tauto). destruct Ps as [P1 P2].
        assert (Go : passes N Z a c d -> back_walk \/ active N Z (a :: c :: d :: l) /\ ~ In v (a :: c :: d :: l)).
        { intros Q. right. split; [apply active_cons; auto; intros e l' [= <- <-]; auto|]. intros [Q'|Q']; auto. }
        destruct (arrow_dec a c) as [Aa|Aa]; [|apply Go, passes_through; [tauto|intros Q; apply P2; [tauto|right; auto]]].
        destruct (arrow_dec d c) as [Ae|Ae]; [|apply Go, passes_through; [tauto|intros Q; apply P2; [tauto|right; auto]]].
        destruct (relevant_dec Z c) as [Rz|Rz]; [apply Go, passes_collider; auto|].
        left. destruct P1 as (z & [<-|Hz] & Q); [auto| |exfalso; apply Rz, obs_relevant; exists z; auto].
        destruct Q as [Q|Q]; [congruence|]. destruct (down_walk Z c v (d :: l) Q Rz A1) as (b & m & Ab & A3 & L3 & I3).
        exists b, m. split; auto. split; auto. split; [|congruence]. intros Q'. destruct (I3 v Q') as [Q2|Q2]; [apply A2; right; auto|apply (no_loop v Q2)].
    Qed.

    Theorem back_door_linked p : ~ In u Z -> (forall b l, trail (v :: b :: l) v u -> arr b v -> ~ active N Z (v :: b :: l)) ->
      arr p v -> ~ In p (v :: Z) -> ~ linked N (u :: v :: Z) (v :: Z) u p.
    Proof.
      intros Nu BD Ap Np L.
      assert (L2 : linked N (u :: [p] ++ v :: Z) (v :: Z) u p).
      { assert (Rl : forall x, relevant N (u :: v :: Z) x -> relevant N (u :: [p] ++ v :: Z) x) by (intros x (y & Hy & Q); exists y; split; auto; cbn in *; tauto).
        clear - L Rl. revert L Rl. generalize (u :: v :: Z) (u :: [p] ++ v :: Z). intros xs ys L Rl. unfold linked in *. induction L as [x y [(R1 & R2 & M) Ny]| |]; [|apply rt_refl|eapply rt_trans; eauto].
        apply rt_step. split; auto. split; auto. split; auto. destruct M as [M|[M|(z & Rz & M)]]; auto. right. right. exists z. auto. }
      assert (B : back_walk).
      { destruct (linked_walk (v :: Z) [p] u p) as [(t & [<-|[]] & W)|[W _]]; auto; [intros [Q|Q]; auto| |];
          destruct W as (l & Act & La); (destruct (off_v (List.length l) p l) as [B|[A1 A2]]; auto; [intros ->; apply Np; left; auto|]);
          exists p, l; (split; [auto|split; [|split; auto]]); apply active_cons; auto; intros c l' ->; apply passes_through;
          (intros [Q _]; apply (arrow_asym _ _ Ap Q)) || (intros Q; apply Np; right; auto). }
      destruct B as (b & m & Ab & Act & Nv & La). destruct (shorten Z [v] (b :: m) Act) as (l' & ND & A & H & La' & Inc).
      destruct l' as [|b' m']; [discriminate|]. injection H as ->. apply (BD b m'); auto. split; [|split; auto].
      - constructor; auto.
      - change (last (b :: m') v = u). rewrite La'. rewrite <- La. apply last_any.
    Qed.
  End Back.
End Graph.
