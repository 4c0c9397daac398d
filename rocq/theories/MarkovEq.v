(** * MarkovEq: structures with the same links and the same v-structures are joined by reversals of
    covered edges, and a product of local terms that does not see such reversals is the same for both. *)
From Coq Require Import List Bool Arith Lia String Qcanon Permutation Relations.
From Verif Require Import Base QcX Digraph.
Import ListNotations.
Local Open Scope list_scope.

(** ** Finite choice *)
Lemma pick_min {A} (P : A -> bool) (f : A -> nat) l : (exists x, In x l /\ P x = true) ->
  exists x, In x l /\ P x = true /\ forall y, In y l -> P y = true -> (f x <= f y)%nat.
Proof.
  induction l as [|a l IH]; intros (x & Hx & Px); [destruct Hx|].
  destruct (existsb P l) eqn:Q.
  - apply existsb_exists in Q as (z & Hz & Pz). destruct IH as (m & Hm & Pm & Mm); [eauto|].
    destruct (P a) eqn:Pa; [|exists m; split; [right; auto|split; auto]; intros y [->|Hy] Py; [congruence|auto]].
    destruct (le_lt_dec (f a) (f m)) as [G|G].
    + exists a. split; [left; auto|split; auto]. intros y [->|Hy] Py; [auto|]. specialize (Mm y Hy Py). lia.
    + exists m. split; [right; auto|split; auto]. intros y [->|Hy] Py; [lia|auto].
  - destruct Hx as [->|Hx].
    + exists x. split; [left; auto|split; auto]. intros y [->|Hy] Py; auto.
      assert (X : existsb P l = true) by (apply existsb_exists; eauto). congruence.
    + assert (X : existsb P l = true) by (apply existsb_exists; eauto). congruence.
Qed.

Lemma bounded {A} (f : A -> nat) l : exists m, forall x, In x l -> (f x <= m)%nat.
Proof.
  induction l as [|a l (m & H)]; [exists 0%nat; intros x []|].
  exists (Nat.max (f a) m). intros x [->|Hx]; [lia|]. specialize (H x Hx). lia.
Qed.

Lemma pick_max {A} (P : A -> bool) (f : A -> nat) l : (exists x, In x l /\ P x = true) ->
  exists x, In x l /\ P x = true /\ forall y, In y l -> P y = true -> (f y <= f x)%nat.
Proof.
  intros H. destruct (bounded f l) as (m & B). destruct (pick_min P (fun x => (m - f x)%nat) l H) as (x & Hx & Px & M).
  exists x. split; auto. split; auto. intros y Hy Py. specialize (M y Hy Py). pose proof (B y Hy). pose proof (B x Hx). lia.
Qed.

Section Graphs.
  Context (V : list string).

  (** A structure on the nodes [V], as a test whether [x -> y]. *)
  Definition gr := string -> string -> bool.

  Definition ranked (E : gr) : Prop := exists f : string -> nat, forall x y, E x y = true -> (f x < f y)%nat.
  Definition within (E : gr) : Prop := forall x y, E x y = true -> In x V /\ In y V.
  Definition linked (E : gr) x y : Prop := E x y = true \/ E y x = true.
  Definition collider (E : gr) x z y : Prop := E x z = true /\ E y z = true /\ x <> y /\ ~ linked E x y.
  Definition markov (E E' : gr) : Prop :=
    (forall x y, linked E x y <-> linked E' x y) /\ (forall x z y, collider E x z y <-> collider E' x z y).
  Definition covered (E : gr) x y : Prop := E x y = true /\ forall z, z <> x -> E z y = E z x.
  Definition reverse (E : gr) x y : gr := fun u v =>
    if String.eqb u y && String.eqb v x then true
    else if String.eqb u x && String.eqb v y then false else E u v.
  Definition pa (E : gr) v : list string := filter (fun u => E u v) V.

  Lemma ranked_irr E x : ranked E -> E x x = true -> False.
  Proof. intros (f & H) X. specialize (H x x X). lia. Qed.
  Lemma ranked_asym E x y : ranked E -> E x y = true -> E y x = true -> False.
  Proof. intros (f & H) X Y. pose proof (H _ _ X). pose proof (H _ _ Y). lia. Qed.

  Lemma reverse_cases E x y u v : reverse E x y u v = true <->
    (u = y /\ v = x) \/ (E u v = true /\ ~ (u = x /\ v = y)).
  Proof.
    unfold reverse. destruct (String.eqb u y && String.eqb v x) eqn:A.
    - apply andb_true_iff in A as [A1 A2]. apply String.eqb_eq in A1. apply String.eqb_eq in A2. tauto.
    - apply andb_false_iff in A. rewrite !String.eqb_neq in A. destruct (String.eqb u x && String.eqb v y) eqn:B.
      + apply andb_true_iff in B as [B1 B2]. apply String.eqb_eq in B1. apply String.eqb_eq in B2. intuition congruence.
      + apply andb_false_iff in B. rewrite !String.eqb_neq in B. tauto.
  Qed.

  (** Reversing a covered edge gives a structure without cycles: put [y] just before [x]. *)
  Lemma reverse_ranked E x y : ranked E -> covered E x y -> ranked (reverse E x y).
  Proof.
    intros (f & F) [Hxy C]. pose proof (F x y Hxy) as Lxy.
    exists (fun v => if String.eqb v y then (2 * f x + 1)%nat else (2 * f v + 2)%nat).
    intros u v H. apply reverse_cases in H as [[-> ->]|[H N]].
    - rewrite String.eqb_refl. destruct (String.eqb_spec x y) as [<-|]; lia.
    - destruct (String.eqb_spec u y) as [->|Nu], (String.eqb_spec v y) as [->|Nv].
      + pose proof (F _ _ H). lia.
      + pose proof (F _ _ H). lia.
      + rewrite C in H by tauto. pose proof (F _ _ H). lia.
      + pose proof (F _ _ H). lia.
  Qed.

  Lemma reverse_linked E x y u v : E x y = true -> linked (reverse E x y) u v <-> linked E u v.
  Proof.
    intros H. unfold linked. rewrite !reverse_cases.
    destruct (string_dec u x), (string_dec u y), (string_dec v x), (string_dec v y); subst; intuition congruence.
  Qed.

  Lemma reverse_collider E x y u z v : ranked E -> covered E x y -> collider (reverse E x y) u z v <-> collider E u z v.
  Proof.
    intros RK [Hxy C]. unfold collider. rewrite (reverse_linked E x y u v Hxy), !reverse_cases.
    split; intros (A & B & N & L).
    - destruct A as [[-> ->]|[A A']], B as [[-> B2]|[B B']]; subst; try congruence; auto.
      + exfalso. apply L. right. rewrite C; auto. intros ->. apply (ranked_irr E x); auto.
      + exfalso. apply L. left. rewrite C; auto. intros ->. apply (ranked_irr E x); auto.
    - split; [|split; [|auto]].
      + right. split; auto. intros [-> ->]. apply L. right. rewrite <- C; auto.
      + right. split; auto. intros [-> ->]. apply L. left. rewrite <- C; auto.
  Qed.

  Lemma reverse_within E x y : within E -> E x y = true -> within (reverse E x y).
  Proof. intros W H u v X. apply reverse_cases in X as [[-> ->]|[X _]]; [destruct (W _ _ H); auto|auto]. Qed.

  (** ** Two structures with the same links and v-structures *)
  Definition opposed (E E' : gr) x y : bool := E x y && E' y x.
  Definition distance (E E' : gr) : nat := List.length (filter (fun e => opposed E E' (fst e) (snd e)) (list_prod V V)).

  (** The edge to reverse: into the first node with an opposed edge, from the last such parent. *)
  Lemma find_covered E E' x0 y0 : ranked E -> ranked E' -> within E -> markov E E' -> opposed E E' x0 y0 = true ->
    exists x y, opposed E E' x y = true /\ covered E x y.
  Proof.
    intros (f & F) RK' W [ML MC] O0. assert (RK : ranked E) by (exists f; auto).
    set (P := fun y => existsb (fun x => opposed E E' x y) V).
    assert (PI : forall x y, opposed E E' x y = true -> In x V /\ In y V /\ P y = true).
    { intros x y H. assert (I : In x V /\ In y V) by (apply W; unfold opposed in H; apply andb_true_iff in H; tauto).
      split; [tauto|]. split; [tauto|]. apply existsb_exists. exists x. tauto. }
    destruct (pick_min P f V) as (y & Hy & Py & My); [exists y0; destruct (PI _ _ O0); tauto|].
    apply existsb_exists in Py.
    destruct (pick_max (fun x => opposed E E' x y) f V Py) as (x & Hx & Pxy & Mx).
    exists x, y. split; auto. pose proof Pxy as Pxy0. unfold opposed in Pxy. apply andb_true_iff in Pxy as [Exy Eyx].
    assert (Keep : forall u v, E u v = true -> (f v < f y)%nat -> E' u v = true).
    { intros u v H L. destruct (proj1 (ML u v) (or_introl H)) as [K|K]; auto. exfalso.
      assert (O : opposed E E' u v = true) by (unfold opposed; rewrite H, K; auto).
      destruct (PI _ _ O) as (_ & Iv & Pv). specialize (My v Iv Pv). lia. }
    split; auto. intros z Nz. apply eq_true_iff_eq. split; intros H.
    - assert (Lzx : linked E z x).
      { destruct (E z x) eqn:Q1; [left; auto|]. destruct (E x z) eqn:Q2; [right; auto|]. exfalso.
        assert (CC : collider E x y z) by (repeat split; auto; intros [K|K]; congruence).
        apply MC in CC. destruct CC as (K & _). apply (ranked_asym E' x y); auto. }
      destruct Lzx as [K|K]; auto. exfalso.
      assert (Fz : (f z < f y)%nat) by (apply F; auto).
      assert (Ezy : E' z y = true).
      { destruct (proj1 (ML z y) (or_introl H)) as [J|J]; auto. exfalso.
        assert (O : opposed E E' z y = true) by (unfold opposed; rewrite H, J; auto).
        destruct (PI _ _ O) as (Iz & _ & _). specialize (Mx z Iz O). pose proof (F _ _ K). lia. }
      pose proof (Keep _ _ K Fz) as Exz. destruct RK' as (f' & F').
      pose proof (F' _ _ Exz). pose proof (F' _ _ Ezy). pose proof (F' _ _ Eyx). lia.
    - assert (Ezx : E' z x = true) by (apply Keep; auto).
      assert (Lzy : linked E z y).
      { destruct (E z y) eqn:Q1; [left; auto|]. destruct (E y z) eqn:Q2; [right; auto|]. exfalso.
        assert (Nzy : z <> y) by (intros ->; apply (ranked_asym E x y); auto).
        assert (CC : collider E' z x y).
        { repeat split; auto. intros K. apply ML in K. destruct K; congruence. }
        apply MC in CC. destruct CC as (_ & K & _). apply (ranked_asym E x y); auto. }
      destruct Lzy as [K|K]; auto. exfalso.
      pose proof (F _ _ K). pose proof (F _ _ H). pose proof (F _ _ Exy). lia.
  Qed.

  Lemma filter_less {A} (p q : A -> bool) l a : (forall x, q x = true -> p x = true) -> In a l -> p a = true -> q a = false ->
    (List.length (filter q l) < List.length (filter p l))%nat.
  Proof.
    intros H Ha Pa Qa.
    assert (Le : forall m, (List.length (filter q m) <= List.length (filter p m))%nat).
    { induction m as [|b m IH]; cbn; auto. destruct (q b) eqn:Q; [rewrite (H b Q); cbn; lia|]. destruct (p b); cbn; lia. }
    induction l as [|b l IH]; [destruct Ha|]. cbn. destruct Ha as [->|Ha].
    - rewrite Pa, Qa. cbn. specialize (Le l). lia.
    - specialize (IH Ha). destruct (q b) eqn:Q; [rewrite (H b Q); cbn; lia|]. destruct (p b); cbn; lia.
  Qed.

  Lemma closer E E' x y : ranked E -> ranked E' -> within E -> opposed E E' x y = true ->
    (distance (reverse E x y) E' < distance E E')%nat.
  Proof.
    intros RK RK' W O. unfold distance. pose proof O as O'. unfold opposed in O. apply andb_true_iff in O as [A B].
    assert (Nxy : x <> y) by (intros ->; apply (ranked_irr E y); auto).
    apply (filter_less _ _ _ (x, y)).
    - intros [u v]. cbn [fst snd]. unfold opposed. rewrite !andb_true_iff, reverse_cases.
      intros [[[-> ->]|[H _]] K]; [|auto]. exfalso. apply (ranked_asym E' x y); auto.
    - apply in_prod_iff. apply W; auto.
    - exact O'.
    - cbn [fst snd]. unfold opposed. destruct (reverse E x y x y) eqn:Q; auto. apply reverse_cases in Q. intuition congruence.
  Qed.

  (** Chickering's theorem, in the form of an induction: what survives reversing a covered edge is shared by
      all structures with the same links and v-structures. *)
  Theorem markov_ind (Q : gr -> gr -> Prop) (E' : gr) : ranked E' ->
    (forall E, (forall x y, E x y = E' x y) -> Q E E') ->
    (forall E x y, ranked E -> within E -> covered E x y -> Q (reverse E x y) E' -> Q E E') ->
    forall E, ranked E -> within E -> markov E E' -> Q E E'.
  Proof.
    intros RK' Base Step. enough (G : forall n E, (distance E E' <= n)%nat -> ranked E -> within E -> markov E E' -> Q E E').
    { intros E. apply (G (distance E E')). auto. }
    induction n as [|n IH]; intros E D RK W M.
    all: destruct (existsb (fun e => opposed E E' (fst e) (snd e)) (list_prod V V)) eqn:X.
    1,3: apply existsb_exists in X as ([x0 y0] & _ & O0); cbn [fst snd] in O0;
      destruct (find_covered E E' x0 y0 RK RK' W M O0) as (x & y & O & Cv);
      pose proof (closer E E' x y RK RK' W O) as Lt.
    - lia.
    - apply (Step E x y RK W Cv). apply IH; [lia|apply reverse_ranked; auto|apply reverse_within; auto; apply Cv|].
      destruct M as [ML MC]. split; intros.
      + rewrite reverse_linked by apply Cv. apply ML.
      + rewrite reverse_collider by auto. apply MC.
    - apply Base. intros x y. apply eq_true_iff_eq.
      assert (NO : forall u v, opposed E E' u v = false).
      { intros u v. destruct (opposed E E' u v) eqn:O; auto. exfalso.
        assert (Y : existsb (fun e => opposed E E' (fst e) (snd e)) (list_prod V V) = true).
        { apply existsb_exists. exists (u, v). split; auto. apply in_prod_iff. apply W. unfold opposed in O. apply andb_true_iff in O; tauto. }
        congruence. }
      destruct M as [ML _]. unfold opposed in NO. split; intros H.
      + destruct (proj1 (ML x y) (or_introl H)) as [K|K]; auto. specialize (NO x y). rewrite H, K in NO. discriminate.
      + destruct (proj2 (ML x y) (or_introl H)) as [K|K]; auto. specialize (NO y x). rewrite H, K in NO. discriminate.
    - apply Base. intros x y. apply eq_true_iff_eq.
      assert (NO : forall u v, opposed E E' u v = false).
      { intros u v. destruct (opposed E E' u v) eqn:O; auto. exfalso.
        assert (Y : existsb (fun e => opposed E E' (fst e) (snd e)) (list_prod V V) = true).
        { apply existsb_exists. exists (u, v). split; auto. apply in_prod_iff. apply W. unfold opposed in O. apply andb_true_iff in O; tauto. }
        congruence. }
      destruct M as [ML _]. unfold opposed in NO. split; intros H.
      + destruct (proj1 (ML x y) (or_introl H)) as [K|K]; auto. specialize (NO x y). rewrite H, K in NO. discriminate.
      + destruct (proj2 (ML x y) (or_introl H)) as [K|K]; auto. specialize (NO y x). rewrite H, K in NO. discriminate.
  Qed.

  (** ** Products of local terms *)
  Section Product.
    Local Open Scope Qc_scope.
    Context (local : string -> list string -> Qc).
    Context (L1 : forall v P P', In v V -> Permutation P P' -> local v P = local v P').
    Context (L2 : forall a b P, In a V -> In b V -> incl P V -> NoDup (a :: b :: P) ->
                    local a P * local b (a :: P) = local b P * local a (b :: P)).
    Context (NDV : NoDup V).

    Definition total (E : gr) : Qc := Qprod (fun v => local v (pa E v)) V.

    Lemma Qprod_perm {A} (f : A -> Qc) l l' : Permutation l l' -> Qprod f l = Qprod f l'.
    Proof. unfold Qprod. induction 1; cbn [fold_right]; try congruence. ring. Qed.
    Lemma Qprod_same {A} (f g : A -> Qc) l : (forall x, In x l -> f x = g x) -> Qprod f l = Qprod g l.
    Proof. unfold Qprod. intros H. induction l as [|a l IH]; cbn [fold_right]; auto. rewrite H, IH; auto; [|left; auto]. intros; apply H; right; auto. Qed.

    Lemma two_out x y : In x V -> In y V -> x <> y -> exists W, Permutation V (x :: y :: W).
    Proof.
      intros Hx Hy N. destruct (in_split _ _ Hx) as (A & B & E). 
      assert (Y : In y (A ++ B)) by (rewrite E in Hy; apply in_app_or in Hy; apply in_or_app; destruct Hy as [|[|]]; auto; congruence).
      destruct (in_split _ _ Y) as (C & D & E2). exists (C ++ D). rewrite E.
      transitivity (x :: A ++ B); [symmetry; apply Permutation_middle|]. rewrite E2. constructor. symmetry. apply Permutation_middle.
    Qed.

    Lemma pa_perm E F v w : (forall u, In u V -> F u v = (E u w || String.eqb u w)) -> E w w = false -> In w V ->
      Permutation (pa F v) (w :: pa E w).
    Proof.
      intros H Irr Hw. apply NoDup_Permutation.
      - apply NoDup_filter; auto.
      - constructor; [|apply NoDup_filter; auto]. unfold pa. rewrite filter_In. intros [_ K]. congruence.
      - intros u. unfold pa. cbn [In]. rewrite !filter_In. split.
        + intros [I K]. rewrite H in K by auto. apply orb_true_iff in K as [K|K]; auto. apply String.eqb_eq in K. auto.
        + intros [<-|[I K]]; split; auto; rewrite H by auto; apply orb_true_iff; [right; apply String.eqb_refl|auto].
    Qed.

    Lemma total_reverse E x y : ranked E -> within E -> covered E x y -> total E = total (reverse E x y).
    Proof.
      intros RK W Cv. pose proof (reverse_ranked E x y RK Cv) as RK'. pose proof Cv as [Hxy C]. destruct (W x y Hxy) as [Ix Iy].
      assert (N : x <> y) by (intros ->; apply (ranked_irr E y); auto).
      assert (Irr : forall v, E v v = false) by (intros v; destruct (E v v) eqn:Q; auto; exfalso; apply (ranked_irr E v); auto).
      destruct (two_out x y Ix Iy N) as (U & PU). unfold total. rewrite !(Qprod_perm _ V (x :: y :: U) PU).
      unfold Qprod. cbn [fold_right]. rewrite !Qcmult_assoc. f_equal.
      - set (P := pa E x).
        assert (Hy : Permutation (pa E y) (x :: P)).
        { apply pa_perm; auto. intros u _. destruct (String.eqb_spec u x) as [->|Nu]; [rewrite Hxy, orb_true_r; auto|]. rewrite C, orb_false_r; auto. }
        assert (Py' : pa (reverse E x y) y = P).
        { unfold P, pa. apply filter_ext_in. intros u _. apply eq_true_iff_eq. rewrite reverse_cases. split.
          - intros [[-> ->]|[K NK]]; [congruence|]. rewrite <- C; auto. 
          - intros K. right. assert (u <> x) by (intros ->; congruence). rewrite C by auto. split; auto. tauto. }
        assert (Hx' : Permutation (pa (reverse E x y) x) (y :: P)).
        { rewrite <- Py'. apply pa_perm; auto.
          - intros u _. apply eq_true_iff_eq. rewrite orb_true_iff, !reverse_cases, String.eqb_eq.
            destruct (string_dec u y) as [->|Nu]; [tauto|]. destruct (string_dec u x) as [->|Nx].
            + rewrite Irr. intuition congruence.
            + rewrite C by auto. intuition congruence.
          - destruct (reverse E x y y y) eqn:Q; auto. exfalso. apply (ranked_irr (reverse E x y) y); auto. }
        rewrite (L1 y _ _ Iy Hy), Py', (L1 x _ _ Ix Hx'). rewrite L2; auto.
        + ring.
        + intros u Hu. apply filter_In in Hu. tauto.
        + constructor; [|constructor; [|apply NoDup_filter; auto]].
          * intros [Q|Q]; [congruence|]. apply filter_In in Q as [_ Q]. congruence.
          * intros Q. apply filter_In in Q as [_ Q]. apply (ranked_asym E x y); auto.
      - apply Qprod_same. intros v Hv. f_equal. unfold pa. apply filter_ext_in. intros u _. apply eq_true_iff_eq. rewrite reverse_cases.
        assert (ND : NoDup (x :: y :: U)) by (apply (Permutation_NoDup PU); auto).
        inversion ND as [|? ? N1 ND1]; subst. inversion ND1 as [|? ? N2 ND2]; subst.
        assert (v <> x) by (intros ->; apply N1; right; auto). assert (v <> y) by (intros ->; auto). intuition congruence.
    Qed.

    Theorem markov_total E E' : ranked E -> ranked E' -> within E -> markov E E' -> total E = total E'.
    Proof.
      intros RK RK' W M. revert E RK W M. apply (markov_ind (fun E E' => total E = total E') E' RK').
      - intros E H. unfold total. apply Qprod_same. intros v Hv. f_equal. unfold pa. apply filter_ext. intros u. apply H.
      - intros E x y RK W Cv H. rewrite total_reverse with (x := x) (y := y); auto.
    Qed.
  End Product.
End Graphs.
