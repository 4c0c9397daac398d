(** * Digraph: directed graphs as edge lists; cycles, ranks, reachability.

    [path] and [acyclic] are specification notions; [is_dag] models
    networkx [is_directed_acyclic_graph] (a library call of causalnex) by its result: repeatedly drop
    the edges whose source has no incoming edge (Kahn's algorithm on edges). *)
From Coq Require Import List Bool Arith Lia Permutation.
From Verif Require Import Base.
Import ListNotations.

Lemma filter_length_le {B} (p : B -> bool) l : List.length (filter p l) <= List.length l.
Proof. induction l as [|x l IH]; simpl; auto. destruct (p x); simpl; lia. Qed.

Section Digraph.
  Context {A : Type} (eqb : A -> A -> bool).

  Inductive path (es : list (A * A)) : A -> A -> Prop :=
  | path_one x y : In (x, y) es -> path es x y
  | path_step x y z : In (x, y) es -> path es y z -> path es x z.

  (** No node reaches itself. *)
  Definition acyclic (es : list (A * A)) : Prop := forall x, ~ path es x x.

  Definition has_in (es : list (A * A)) (x : A) : bool := existsb (fun e => eqb (snd e) x) es.

  Definition strip (es : list (A * A)) : list (A * A) := filter (fun e => has_in es (fst e)) es.

  Fixpoint strip_n (n : nat) (es : list (A * A)) : list (A * A) :=
    match n with O => es | S k => strip_n k (strip es) end.

  Definition is_dag (es : list (A * A)) : bool :=
    match strip_n (List.length es) es with [] => true | _ => false end.

  Lemma path_trans es x y z : path es x y -> path es y z -> path es x z.
  Proof. induction 1; intros H'; eauto using path. Qed.

  Lemma path_incl es es' x y : incl es es' -> path es x y -> path es' x y.
  Proof. intros I. induction 1; eauto using path. Qed.

  Lemma acyclic_incl es es' : incl es es' -> acyclic es' -> acyclic es.
  Proof. intros I H x P. apply (H x), (path_incl es); auto. Qed.

  Lemma rank_path es (r : A -> nat) x y :
    (forall u v, In (u, v) es -> r u < r v) -> path es x y -> r x < r y.
  Proof. intros H. induction 1 as [u v I|u v w I P IH]; [auto|]. specialize (H _ _ I). lia. Qed.

  Lemma rank_acyclic es (r : A -> nat) :
    (forall u v, In (u, v) es -> r u < r v) -> acyclic es.
  Proof. intros H x P. pose proof (rank_path es r x x H P). lia. Qed.

  Hypothesis eqb_spec : forall x y, reflect (x = y) (eqb x y).

  Lemma has_in_true es x : has_in es x = true <-> exists y, In (y, x) es.
  Proof.
    unfold has_in. rewrite existsb_exists. split.
    - intros ([y z] & H & E). simpl in E. destruct (eqb_spec z x); subst; [eauto|discriminate].
    - intros (y & H). exists (y, x). split; auto. simpl. destruct (eqb_spec x x); auto.
  Qed.

  Lemma strip_In es x y : In (x, y) (strip es) <-> In (x, y) es /\ exists z, In (z, x) es.
  Proof. unfold strip. rewrite filter_In, has_in_true. reflexivity. Qed.

  Lemma strip_length es : List.length (strip es) <= List.length es.
  Proof. apply filter_length_le. Qed.

  Lemma filter_same_length {B} (p : B -> bool) l :
    List.length (filter p l) = List.length l -> filter p l = l.
  Proof.
    induction l as [|x l IH]; simpl; auto. destruct (p x); simpl; intros H.
    - f_equal. apply IH. lia.
    - pose proof (filter_length_le p l). lia.
  Qed.

  (** A backward walk of n edges ending in x, newest node first. *)
  Inductive bwalk (es : list (A * A)) : list A -> Prop :=
  | bw_one x : bwalk es [x]
  | bw_cons x y l : In (x, y) es -> bwalk es (y :: l) -> bwalk es (x :: y :: l).

  Lemma bwalk_path es x l : bwalk es (x :: l) -> forall y, In y l -> path es x y.
  Proof.
    revert x. induction l as [|z l IH]; intros x H y Hy; [destruct Hy|].
    inversion H; subst. destruct Hy as [<-|Hy]; [apply path_one; auto|].
    eapply path_step; eauto.
  Qed.

  Lemma bwalk_tl es x y l : bwalk es (x :: y :: l) -> bwalk es (y :: l).
  Proof. inversion 1; auto. Qed.

  Lemma bwalk_dup es l : bwalk es l -> ~ NoDup l -> exists x, path es x x.
  Proof.
    induction 1 as [x|x y l I H IH]; intros D.
    - exfalso. apply D. repeat constructor; auto.
    - destruct (in_dec (fun a c => reflect_dec _ _ (eqb_spec a c)) x (y :: l)) as [Hin|Nin].
      + exists x. apply (bwalk_path es x (y :: l)); [constructor; auto|auto].
      + apply IH. intros ND. apply D. constructor; auto.
  Qed.

  Lemma strip_fix_cycle es : strip es = es -> es <> [] -> exists x, path es x x.
  Proof.
    intros F Ne.
    assert (W : forall n, exists l, List.length l = S n /\ bwalk es l /\ incl l (map fst es)).
    { induction n as [|n (l & L & B & I)].
      - destruct es as [|[x y] es']; [congruence|]. exists [x]. split; auto. split; [constructor|].
        intros u [<-|[]]. left; auto.
      - destruct l as [|x l]; [discriminate|].
        assert (Hx : In x (map fst es)) by (apply I; left; auto).
        apply in_map_iff in Hx as ([x' y] & Ex & Hin). simpl in Ex. subst x'.
        rewrite <- F in Hin. apply strip_In in Hin as (_ & z & Hz).
        exists (z :: x :: l). split; [simpl in *; lia|]. split; [constructor; auto|].
        intros u [<-|Hu]; auto. apply in_map_iff. exists (z, x); auto. }
    destruct (W (List.length (map fst es))) as (l & L & B & I).
    apply (bwalk_dup es l B). intros ND. apply (NoDup_incl_length ND) in I. lia.
  Qed.

  Lemma acyclic_rank_n n : forall es, List.length es <= n -> acyclic es ->
    exists r : A -> nat, forall u v, In (u, v) es -> r u < r v.
  Proof.
    induction n as [|n IH]; intros es L Ac.
    - destruct es; simpl in L; [|lia]. exists (fun _ => 0). intros u v [].
    - destruct es as [|e es0]; [exists (fun _ => 0); intros u v []|].
      set (es := e :: es0) in *.
      assert (Lt : List.length (strip es) < List.length es).
      { pose proof (strip_length es). destruct (Nat.eq_dec (List.length (strip es)) (List.length es)) as [E|]; [|lia].
        apply filter_same_length in E. destruct (strip_fix_cycle es E) as (x & P); [discriminate|].
        exfalso. apply (Ac x P). }
      destruct (IH (strip es)) as (r & Hr).
      + simpl in *. lia.
      + apply (acyclic_incl _ es); auto. intros u Hu. apply filter_In in Hu; tauto.
      + exists (fun x => if has_in es x then S (r x) else 0). intros u v I.
        assert (Hv : has_in es v = true) by (apply has_in_true; eauto). rewrite Hv.
        destruct (has_in es u) eqn:Hu; [|lia].
        assert (r u < r v); [|lia]. apply Hr. apply strip_In. split; auto. apply has_in_true; auto.
  Qed.

  Lemma acyclic_rank es : acyclic es <-> exists r : A -> nat, forall u v, In (u, v) es -> r u < r v.
  Proof.
    split.
    - apply (acyclic_rank_n (List.length es)); auto.
    - intros (r & H). eapply rank_acyclic; eauto.
  Qed.

  Lemma strip_path_back es x y : path es x y -> (exists z, In (z, x) es) -> path (strip es) x y.
  Proof.
    induction 1 as [u v I|u v w I P IH]; intros H.
    - apply path_one, strip_In; auto.
    - apply path_step with v; [apply strip_In; auto|]. apply IH. eauto.
  Qed.

  Lemma path_last es x y : path es x y -> exists z, In (z, y) es.
  Proof. induction 1; eauto. Qed.

  Lemma strip_cycle es x : path es x x -> path (strip es) x x.
  Proof. intros P. apply strip_path_back; auto. eapply path_last; eauto. Qed.

  Lemma strip_n_cycle n : forall es x, path es x x -> path (strip_n n es) x x.
  Proof. induction n as [|n IH]; simpl; intros es x P; auto. apply IH, strip_cycle, P. Qed.

  Lemma path_ne es x y : path es x y -> es <> [].
  Proof. intros P ->. destruct P as [? ? []|? ? ? []]. Qed.

  Lemma strip_n_fix n es : strip es = es -> strip_n n es = es.
  Proof. intros F. induction n; simpl; auto. rewrite F; auto. Qed.

  Lemma strip_n_reach n : forall es, List.length es <= n -> acyclic es -> strip_n n es = [].
  Proof.
    induction n as [|n IH]; intros es L Ac; simpl.
    - destruct es; simpl in L; auto; lia.
    - apply IH; [|eapply acyclic_incl; eauto; intros u Hu; apply filter_In in Hu; tauto].
      destruct es as [|e es0]; [simpl; lia|]. set (es := e :: es0) in *.
      pose proof (strip_length es). destruct (Nat.eq_dec (List.length (strip es)) (List.length es)) as [E|].
      + apply filter_same_length in E. destruct (strip_fix_cycle es E) as (x & P); [discriminate|].
        exfalso. apply (Ac x P).
      + lia.
  Qed.

  Theorem is_dag_acyclic es : is_dag es = true <-> acyclic es.
  Proof.
    unfold is_dag. split.
    - intros H x P. apply (strip_n_cycle (List.length es)) in P. apply path_ne in P.
      destruct (strip_n (List.length es) es); congruence.
    - intros Ac. rewrite strip_n_reach; auto.
  Qed.

  Lemma is_dag_false es : is_dag es = false <-> exists x, path es x x.
  Proof.
    unfold is_dag. split.
    - intros H. remember (strip_n (List.length es) es) as es' eqn:E.
      assert (Ne : es' <> []) by (intros ->; discriminate). clear H.
      assert (G : forall n es, List.length es <= n -> strip_n n es <> [] -> exists x, path es x x).
      { clear -eqb_spec. induction n as [|n IH]; intros es L Ne.
        - destruct es; simpl in *; [congruence|lia].
        - destruct (Nat.eq_dec (List.length (strip es)) (List.length es)) as [E|N].
          + apply filter_same_length in E. apply (strip_fix_cycle es E). intros ->. apply Ne.
            clear. simpl. induction n; simpl; auto.
          + pose proof (strip_length es). destruct (IH (strip es)) as (x & P); [lia|exact Ne|].
            exists x. eapply path_incl; [|exact P]. intros u Hu. apply filter_In in Hu; tauto. }
      apply (G (List.length es) es); auto. congruence.
    - intros (x & P). apply (strip_n_cycle (List.length es)) in P. apply path_ne in P.
      destruct (strip_n (List.length es) es); congruence.
  Qed.
End Digraph.
