(** * Forest: undirected forests on natural numbers and junction trees.

    Proof-side theory: connectivity of an edge list, forests, the running intersection property and
    the exchange lemma behind the greedy construction of a junction tree. *)
From Coq Require Import List Bool Arith Lia String Permutation.
From Verif Require Import Base BbnModel.
Import ListNotations.
Local Open Scope list_scope.

Definition edge := (nat * nat)%type.

Definition adj (E : list edge) (x y : nat) : Prop := In (x, y) E \/ In (y, x) E.

Inductive conn (E : list edge) : nat -> nat -> Prop :=
| conn_refl x : conn E x x
| conn_step x y z : adj E x y -> conn E y z -> conn E x z.

Lemma adj_sym E x y : adj E x y -> adj E y x.
Proof. unfold adj; tauto. Qed.

Lemma conn_trans E x y z : conn E x y -> conn E y z -> conn E x z.
Proof. induction 1; auto. intros. econstructor; eauto. Qed.

Lemma conn_adj E x y : adj E x y -> conn E x y.
Proof. intros. econstructor; eauto. constructor. Qed.

Lemma conn_sym E x y : conn E x y -> conn E y x.
Proof.
  induction 1; [constructor|]. eapply conn_trans; eauto. apply conn_adj, adj_sym; auto.
Qed.

Lemma conn_incl E E' x y : incl E E' -> conn E x y -> conn E' x y.
Proof.
  intros I. induction 1; [constructor|]. eapply conn_step; eauto.
  destruct H; [left|right]; auto.
Qed.

Lemma conn_perm E E' x y : Permutation E E' -> conn E x y -> conn E' x y.
Proof. intros P. apply conn_incl. intros e. apply Permutation_in; auto. Qed.

Lemma conn_nil x y : conn [] x y <-> x = y.
Proof.
  split.
  - inversion 1; auto. destruct H0 as [[]|[]].
  - intros ->; constructor.
Qed.

Lemma conn_cons a b E x y :
  conn ((a, b) :: E) x y <->
  conn E x y \/ (conn E x a /\ conn E b y) \/ (conn E x b /\ conn E a y).
Proof.
  split.
  - induction 1 as [|x y z H H' IH].
    + left; constructor.
    + assert (Hxy : (x = a /\ y = b) \/ (x = b /\ y = a) \/ adj E x y).
      { destruct H as [[H|H]|[H|H]]; try injection H as <- <-; auto;
        right; right; [left|right]; auto. }
      destruct Hxy as [[-> ->]|[[-> ->]|Hxy]].
      * destruct IH as [IH|[[I1 I2]|[I1 I2]]].
        -- right; left; split; [constructor|auto].
        -- right; left; split; [constructor|auto].
        -- left. auto.
      * destruct IH as [IH|[[I1 I2]|[I1 I2]]].
        -- right; right; split; [constructor|auto].
        -- left; auto.
        -- right; right; split; [constructor|auto].
      * destruct IH as [IH|[[I1 I2]|[I1 I2]]].
        -- left. econstructor; eauto.
        -- right; left. split; auto. econstructor; eauto.
        -- right; right. split; auto. econstructor; eauto.
  - assert (I : incl E ((a, b) :: E)) by (intros e He; right; auto).
    assert (Hab : adj ((a, b) :: E) a b) by (left; left; auto).
    intros [H|[[H1 H2]|[H1 H2]]].
    + eapply conn_incl; eauto.
    + eapply conn_trans; [eapply conn_incl; eauto|].
      eapply conn_step; [exact Hab|]. eapply conn_incl; eauto.
    + eapply conn_trans; [eapply conn_incl; eauto|].
      eapply conn_step; [apply adj_sym, Hab|]. eapply conn_incl; eauto.
Qed.

Lemma conn_dec E x y : {conn E x y} + {~ conn E x y}.
Proof.
  revert x y. induction E as [|[a b] E IH]; intros x y.
  - destruct (Nat.eq_dec x y); [left|right]; rewrite conn_nil; auto.
  - destruct (IH x y); [left; apply conn_cons; auto|].
    destruct (IH x a), (IH b y); try (left; apply conn_cons; tauto);
    destruct (IH x b), (IH a y); try (left; apply conn_cons; tauto);
    right; rewrite conn_cons; tauto.
Qed.

Lemma adj_incl E E' x y : incl E E' -> adj E x y -> adj E' x y.
Proof. intros I [H|H]; [left|right]; auto. Qed.

(** ** Forests *)
Inductive forest : list edge -> Prop :=
| forest_nil : forest []
| forest_cons a b E : forest E -> ~ conn E a b -> forest ((a, b) :: E).

Lemma forest_swap e f E : forest (e :: f :: E) -> forest (f :: e :: E).
Proof.
  destruct e as [a b], f as [c d]. intros H.
  inversion H as [|? ? ? H1 N1]; subst. inversion H1 as [|? ? ? H2 N2]; subst.
  constructor; [constructor; auto|].
  - intros C. apply N1. eapply conn_incl; [|eauto]. intros e He; right; auto.
  - rewrite conn_cons. intros [C|[[C1 C2]|[C1 C2]]]; auto.
    + apply N1. apply conn_cons. right. left. split; apply conn_sym; auto.
    + apply N1. apply conn_cons. right. right. split; auto.
Qed.

Lemma forest_perm E E' : Permutation E E' -> forest E -> forest E'.
Proof.
  induction 1; auto.
  - intros F. destruct x as [a b]. inversion F as [|? ? ? F1 F2]; subst. constructor; auto.
    intros C. apply F2. eapply conn_perm; [|eauto]. symmetry; auto.
  - apply forest_swap.
Qed.

Lemma forest_app_r E1 E2 : forest (E1 ++ E2) -> forest E2.
Proof. induction E1 as [|e E1 IH]; simpl; auto. intros H; inversion H; auto. Qed.

Lemma forest_app_l E1 E2 : forest (E1 ++ E2) -> forest E1.
Proof.
  intros H. apply (forest_app_r E2). eapply forest_perm; [|eauto]. apply Permutation_app_comm.
Qed.

(** An edge of a forest on the only way between [x] and [y], outside a part [F] that does not
    connect them. *)
Lemma bridge F R x y :
  forest (F ++ R) -> ~ conn F x y -> conn (F ++ R) x y ->
  exists R1 f R2, R = R1 ++ f :: R2 /\ ~ conn (F ++ R1 ++ R2) x y.
Proof.
  revert F. induction R as [|[a b] R IH]; intros F HF N C.
  - rewrite app_nil_r in C. contradiction.
  - assert (P : Permutation (F ++ (a, b) :: R) ((a, b) :: F ++ R))
      by (symmetry; apply Permutation_middle).
    pose proof (forest_perm _ _ P HF) as HF'. inversion HF' as [|? ? ? HF2 Nab]; subst.
    destruct (conn_dec (F ++ R) x y) as [C'|N'].
    + destruct (IH F HF2 N C') as (R1 & f & R2 & -> & Nb).
      exists ((a, b) :: R1), f, R2. split; auto.
      intros C2.
      assert (P2 : Permutation (F ++ ((a, b) :: R1) ++ R2) ((a, b) :: F ++ R1 ++ R2))
        by (symmetry; apply Permutation_middle).
      apply (conn_perm _ _ _ _ P2) in C2. apply conn_cons in C2.
      assert (I : incl (F ++ R1 ++ R2) (F ++ R1 ++ f :: R2)).
      { intros e. rewrite !in_app_iff. simpl. tauto. }
      destruct C2 as [C2|[[C1 C2]|[C1 C2]]]; auto.
      * apply Nab. apply (conn_trans _ a x b); [apply conn_sym; eapply conn_incl; eauto|].
        apply (conn_trans _ x y b); auto. apply conn_sym; eapply conn_incl; eauto.
      * apply Nab. apply (conn_trans _ a y b); [eapply conn_incl; eauto|].
        apply (conn_trans _ y x b); [apply conn_sym; auto|]. eapply conn_incl; eauto.
    + exists [], (a, b), R. split; auto.
Qed.

(** ** Junction trees *)
Section JT.
  Variable cl : nat -> list var.

  Definition both (v : var) (e : edge) : bool := smem v (cl (fst e)) && smem v (cl (snd e)).

  Definition restrict (E : list edge) (v : var) : list edge := filter (both v) E.

  (** Running intersection: the nodes that contain a variable are connected through edges both of
      whose ends contain it. *)
  Definition rip (N : list nat) (E : list edge) : Prop :=
    forall v i j, In i N -> In j N -> In v (cl i) -> In v (cl j) -> conn (restrict E v) i j.

  Record JT (N : list nat) (E : list edge) : Prop := {
    jt_forest : forest E;
    jt_edges : forall a b, In (a, b) E -> In a N /\ In b N;
    jt_conn : forall i j, In i N -> In j N -> conn E i j;
    jt_rip : rip N E
  }.

  Lemma both_true v a b : both v (a, b) = true <-> In v (cl a) /\ In v (cl b).
  Proof. unfold both; simpl. rewrite andb_true_iff, !smem_In. tauto. Qed.

  Lemma restrict_incl E v : incl (restrict E v) E.
  Proof. intros e He. apply filter_In in He. tauto. Qed.

  Lemma restrict_perm E E' v : Permutation E E' -> Permutation (restrict E v) (restrict E' v).
  Proof.
    induction 1; simpl; auto.
    - destruct (both v x); auto.
    - destruct (both v x), (both v y); auto. constructor.
    - etransitivity; eauto.
  Qed.

  Lemma rip_perm N E E' : Permutation E E' -> rip N E -> rip N E'.
  Proof.
    intros P R v i j Hi Hj Vi Vj. eapply conn_perm; [apply restrict_perm; eauto|]. auto.
  Qed.

  Lemma JT_perm N E E' : Permutation E E' -> JT N E -> JT N E'.
  Proof.
    intros P [F D C R]. constructor.
    - eapply forest_perm; eauto.
    - intros a b H. apply D. eapply Permutation_in; [symmetry; eauto|auto].
    - intros. eapply conn_perm; eauto.
    - eapply rip_perm; eauto.
  Qed.

  (** The exchange step.  [F] is the part built so far, [J] a junction tree that contains it.  A new
      edge between different components whose separator is at least as big as every other
      insertable one can be swapped in. *)
  Lemma exchange N J F R x y :
    JT N J -> Permutation J (F ++ R) ->
    In x N -> In y N -> ~ conn F x y ->
    NoDup (cl x) ->
    (forall i, In i N -> NoDup (cl i)) ->
    (forall a b, In a N -> In b N -> ~ conn F a b ->
                 incl (inter (cl x) (cl y)) (inter (cl a) (cl b)) ->
                 List.length (inter (cl a) (cl b)) <= List.length (inter (cl x) (cl y))) ->
    exists R', JT N ((x, y) :: F ++ R').
  Proof.
    intros HJ P Hx Hy Nc NDx ND Max.
    pose proof (JT_perm _ _ _ P HJ) as HJ'. clear HJ P J.
    destruct HJ' as [HF HE HC HR].
    destruct (bridge F R x y HF Nc (HC x y Hx Hy)) as (R1 & [a b] & R2 & -> & Nb).
    assert (P : Permutation (F ++ R1 ++ (a, b) :: R2) ((a, b) :: F ++ R1 ++ R2)).
    { rewrite !app_assoc. symmetry. apply Permutation_middle. }
    set (G := F ++ R1 ++ R2) in *.
    pose proof (forest_perm _ _ P HF) as HFp. inversion HFp as [|? ? ? HG Nab]; subst.
    assert (Hab : In a N /\ In b N).
    { apply HE. rewrite !in_app_iff. simpl. tauto. }
    destruct Hab as [Ha Hb].
    assert (HRp : rip N ((a, b) :: G)) by (eapply rip_perm; eauto).
    assert (HCp : forall i j, In i N -> In j N -> conn ((a, b) :: G) i j).
    { intros i j Hi Hj. eapply conn_perm; eauto. }
    (* the separator of the bridge contains the new separator *)
    assert (I1 : incl (inter (cl x) (cl y)) (inter (cl a) (cl b))).
    { intros v Hv. unfold inter in *. apply filter_In in Hv as [V1 V2]. apply smem_In in V2.
      pose proof (HRp v x y Hx Hy V1 V2) as Cv.
      destruct (both v (a, b)) eqn:B.
      - apply both_true in B as [B1 B2]. apply filter_In. split; auto. apply smem_In; auto.
      - simpl in Cv. rewrite B in Cv. exfalso. apply Nb.
        eapply conn_incl; [|exact Cv]. apply restrict_incl. }
    assert (NF : ~ conn F a b).
    { intros C. apply Nab. eapply conn_incl; [|eauto]. unfold G. intros e He.
      apply in_app_iff; auto. }
    pose proof (Max a b Ha Hb NF I1) as Len.
    assert (NDi : NoDup (inter (cl x) (cl y))) by (apply NoDup_filter; auto).
    assert (I2 : incl (inter (cl a) (cl b)) (inter (cl x) (cl y))).
    { apply NoDup_length_incl; auto. }
    assert (Sab : forall v, both v (a, b) = both v (x, y)).
    { intros v. destruct (both v (a, b)) eqn:B1, (both v (x, y)) eqn:B2; auto.
      - apply both_true in B1 as [B1 B1']. assert (Hv : In v (inter (cl a) (cl b))).
        { apply filter_In. split; auto. apply smem_In; auto. }
        apply I2 in Hv. apply filter_In in Hv as [V1 V2]. apply smem_In in V2.
        assert (both v (x, y) = true) by (apply both_true; auto). congruence.
      - apply both_true in B2 as [B2 B2']. assert (Hv : In v (inter (cl x) (cl y))).
        { apply filter_In. split; auto. apply smem_In; auto. }
        apply I1 in Hv. apply filter_In in Hv as [V1 V2]. apply smem_In in V2.
        assert (both v (a, b) = true) by (apply both_true; auto). congruence. }
    (* replacing the bridge inside any sub-list keeps connectivity *)
    assert (Swap : forall H, incl H G -> conn ((a, b) :: H) x y ->
                    forall i j, conn ((a, b) :: H) i j -> conn ((x, y) :: H) i j).
    { intros H IH Cxy i j Cij.
      assert (Nxy : ~ conn H x y) by (intros C; apply Nb; eapply conn_incl; eauto).
      assert (Cab : conn ((x, y) :: H) a b).
      { apply conn_cons in Cxy as [C|[[C1 C2]|[C1 C2]]]; [contradiction| |]; apply conn_cons.
        - right; left. split; apply conn_sym; auto.
        - right; right. split; auto. }
      apply conn_cons in Cij as [C|[[C1 C2]|[C1 C2]]].
      - eapply conn_incl; [|eauto]. intros e He; right; auto.
      - assert (I : incl H ((x, y) :: H)) by (intros e He; right; auto).
        eapply conn_trans; [eapply conn_incl; eauto|].
        eapply conn_trans; [exact Cab|]. eapply conn_incl; eauto.
      - assert (I : incl H ((x, y) :: H)) by (intros e He; right; auto).
        eapply conn_trans; [eapply conn_incl; eauto|].
        eapply conn_trans; [apply conn_sym; exact Cab|]. eapply conn_incl; eauto. }
    exists (R1 ++ R2). fold G. constructor.
    - constructor; auto.
    - intros c d [[= <- <-]|H]; auto. apply HE. unfold G in H. rewrite !in_app_iff in *. simpl. tauto.
    - intros i j Hi Hj. apply Swap; auto. apply incl_refl.
    - intros v i j Hi Hj Vi Vj. pose proof (HRp v i j Hi Hj Vi Vj) as Cv.
      simpl in *. rewrite (Sab v) in Cv. destruct (both v (x, y)) eqn:B; auto.
      apply Swap; auto.
      + apply restrict_incl.
      + apply both_true in B as [B1 B2]. pose proof (HRp v x y Hx Hy B1 B2) as Cxy.
        simpl in Cxy. rewrite (Sab v) in Cxy.
        rewrite (proj2 (both_true v x y) (conj B1 B2)) in Cxy. auto.
  Qed.

  (** A connecting part of a junction tree is the whole tree. *)
  Lemma spanning_part N F R :
    JT N (F ++ R) -> (forall i j, In i N -> In j N -> conn F i j) -> R = [].
  Proof.
    intros [HF HE _ _] HC. destruct R as [|[a b] R]; auto. exfalso.
    assert (P : Permutation (F ++ (a, b) :: R) ((a, b) :: F ++ R))
      by (symmetry; apply Permutation_middle).
    pose proof (forest_perm _ _ P HF) as H. inversion H as [|? ? ? _ Nab]; subst.
    destruct (HE a b) as [Ha Hb]; [rewrite in_app_iff; simpl; auto|].
    apply Nab. eapply conn_incl; [|apply HC; auto]. intros e He. apply in_app_iff; auto.
  Qed.

  (** ** Building junction trees *)
  Lemma JT_single n : JT [n] [].
  Proof.
    constructor.
    - constructor.
    - intros a b [].
    - intros i j [<-|[]] [<-|[]]. constructor.
    - intros v i j [<-|[]] [<-|[]] _ _. constructor.
  Qed.

  Lemma conn_isolated E x y n :
    (forall a b, In (a, b) E -> a <> n /\ b <> n) -> conn E x y -> x = n \/ y = n -> x = y.
  Proof.
    intros H C. induction C as [|x y z A C IH]; auto.
    intros [->| ->].
    - destruct A as [A|A]; apply H in A; tauto.
    - assert (y = n) by auto. subst y. destruct A as [A|A]; apply H in A; tauto.
  Qed.

  Lemma JT_leaf N E n d :
    JT N E -> ~ In n N -> In d N ->
    (forall v i, In v (cl n) -> In i N -> In v (cl i) -> In v (cl d)) ->
    JT (n :: N) ((n, d) :: E).
  Proof.
    intros [HF HE HC HR] Nn Hd Hs.
    assert (Iso : forall a b, In (a, b) E -> a <> n /\ b <> n).
    { intros a b H. apply HE in H as [A B]. split; intros ->; auto. }
    assert (HCn : forall i, In i N -> conn ((n, d) :: E) n i).
    { intros i Hi. apply conn_cons. right; left. split; [constructor|]. auto. }
    constructor.
    - constructor; auto. intros C. assert (n = d) by (eapply conn_isolated; eauto).
      subst; auto.
    - intros a b [[= <- <-]|H]; [simpl; auto|]. apply HE in H. simpl; tauto.
    - intros i j [<-|Hi] [<-|Hj].
      + constructor.
      + apply HCn; auto.
      + apply conn_sym, HCn; auto.
      + eapply conn_incl; [|apply HC; auto]. intros e He; right; auto.
    - assert (HRn : forall v i, In i N -> In v (cl n) -> In v (cl i) ->
                      conn (restrict ((n, d) :: E) v) n i).
      { intros v i Hi Vn Vi. pose proof (Hs v i Vn Hi Vi) as Vd. simpl.
        rewrite (proj2 (both_true v n d) (conj Vn Vd)). apply conn_cons. right; left.
        split; [constructor|]. apply HR; auto. }
      intros v i j [<-|Hi] [<-|Hj] Vi Vj.
      + constructor.
      + apply HRn; auto.
      + apply conn_sym, HRn; auto.
      + eapply conn_incl; [|apply HR; eauto]. simpl. destruct (both v (n, d)).
        * intros e He; right; auto.
        * apply incl_refl.
  Qed.
End JT.

(** Renaming nodes. *)
Definition emap (g : nat -> nat) (E : list edge) : list edge :=
  map (fun e => (g (fst e), g (snd e))) E.

Lemma emap_conn g E x y : conn E x y -> conn (emap g E) (g x) (g y).
Proof.
  induction 1 as [|x y z A C IH]; [constructor|].
  eapply conn_step; [|exact IH]. destruct A as [A|A]; [left|right];
  apply in_map_iff; eexists; (split; [|exact A]); reflexivity.
Qed.

Lemma emap_conn_inv g E N x y :
  (forall a b, In a N -> In b N -> g a = g b -> a = b) ->
  (forall a b, In (a, b) E -> In a N /\ In b N) ->
  In x N -> In y N -> conn (emap g E) (g x) (g y) -> conn E x y.
Proof.
  intros Inj HE Hx Hy C. remember (g x) as gx eqn:Ex. remember (g y) as gy eqn:Ey.
  revert x Hx Ex. induction C as [p|p q r A C IH]; intros x Hx Ex.
  - assert (x = y) by (apply Inj; congruence). subst. constructor.
  - assert (exists z, In z N /\ q = g z /\ adj E x z) as (z & Hz & -> & A').
    { destruct A as [A|A]; apply in_map_iff in A as ([a b] & E1 & A); simpl in E1; injection E1 as E1 E2;
      destruct (HE a b A) as [Ha Hb].
      - exists b. split; auto. split; auto. assert (x = a) by (apply Inj; congruence). subst. left; auto.
      - exists a. split; auto. split; auto. assert (x = b) by (apply Inj; congruence). subst. right; auto. }
    eapply conn_step; eauto.
Qed.

Lemma JT_rename cl cl' g N E :
  JT cl N E ->
  (forall a b, In a N -> In b N -> g a = g b -> a = b) ->
  (forall i v, In i N -> In v (cl' (g i)) <-> In v (cl i)) ->
  JT cl' (map g N) (emap g E).
Proof.
  intros [HF HE HC HR] Inj Hcl. constructor.
  - clear HC HR. induction HF as [|a b E HF IH Nab]; simpl; [constructor|].
    constructor.
    + apply IH. intros c d H. apply HE. right; auto.
    + destruct (HE a b) as [Ha Hb]; [left; auto|]. intros C. apply Nab.
      eapply emap_conn_inv; eauto. intros c d H. apply HE; right; auto.
  - intros a b H. apply in_map_iff in H as ([c d] & [= <- <-] & H). simpl.
    apply HE in H as [H1 H2]. split; apply in_map; auto.
  - intros i j Hi Hj. apply in_map_iff in Hi as (i' & <- & Hi). apply in_map_iff in Hj as (j' & <- & Hj).
    apply emap_conn; auto.
  - intros v i j Hi Hj Vi Vj.
    apply in_map_iff in Hi as (i' & <- & Hi). apply in_map_iff in Hj as (j' & <- & Hj).
    apply Hcl in Vi; auto. apply Hcl in Vj; auto.
    eapply conn_incl; [|apply emap_conn, HR; eauto].
    intros e He. apply in_map_iff in He as ([a b] & <- & H). apply filter_In in H as [H B].
    apply both_true in B as [B1 B2]. destruct (HE a b H) as [Ha Hb].
    apply filter_In. split.
    + apply in_map_iff. exists (a, b); auto.
    + apply both_true. simpl. split; apply Hcl; auto.
Qed.

(** A node may get extra variables that no other node has. *)
Lemma JT_enlarge cl cl' N E d :
  JT cl N E ->
  (forall i v, In i N -> i <> d -> (In v (cl' i) <-> In v (cl i))) ->
  incl (cl d) (cl' d) ->
  (forall v i, In v (cl' d) -> ~ In v (cl d) -> In i N -> i <> d -> ~ In v (cl i)) ->
  JT cl' N E.
Proof.
  intros [HF HE HC HR] Heq Hincl Hnew. constructor; auto.
  intros v i j Hi Hj Vi Vj.
  assert (Hback : forall k, In k N -> In v (cl' k) -> In v (cl k) \/ (k = d /\ In v (cl' d) /\ ~ In v (cl d))).
  { intros k Hk Vk. destruct (Nat.eq_dec k d) as [->|Nk].
    - destruct (in_dec String.string_dec v (cl d)); auto.
    - left. apply Heq; auto. }
  destruct (Nat.eq_dec i j) as [->|Nij]; [constructor|].
  assert (In v (cl i) /\ In v (cl j)) as [Wi Wj].
  { destruct (Hback i Hi Vi) as [Wi|(-> & W1 & W2)]; destruct (Hback j Hj Vj) as [Wj|(-> & W3 & W4)]; auto.
    - exfalso. eapply (Hnew v i); eauto.
    - exfalso. eapply (Hnew v j); eauto.
    - congruence. }
  eapply conn_incl; [|apply HR; eauto].
  intros [a b] H. apply filter_In in H as [H B]. apply both_true in B as [B1 B2].
  destruct (HE a b H) as [Ha Hb]. apply filter_In. split; auto. apply both_true.
  split.
  - destruct (Nat.eq_dec a d) as [->|Na]; auto. apply Heq; auto.
  - destruct (Nat.eq_dec b d) as [->|Nb]; auto. apply Heq; auto.
Qed.
