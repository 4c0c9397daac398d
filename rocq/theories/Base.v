(** * Base: Python-level notions shared by all model files.

    Nothing here models a particular causalnex function.  It fixes how Python
    exceptions, dictionaries, [sorted], labels and strings are represented. *)
From Coq Require Import List Bool Arith ZArith Lia String Ascii Permutation Sorted.
Import ListNotations.
Local Open Scope list_scope.

(** Python exception classes raised by the modelled code.  [OutOfFuel] is not a
    Python exception: it marks a loop that did not finish within the fuel. *)
Inductive exn : Type :=
| TypeError | ValueError | KeyError | IndexError | ZeroDivisionError
| AssertionError | AttributeError | RuntimeError | NotImplementedError
| NetworkXError | NodeNotFound | NotFittedError
| VariableNotInGraphError (v : string)
| VariableValueNotInDomainError (v : string)
| OutOfFuel.

Inductive res (A : Type) : Type :=
| Ok (a : A)
| Err (e : exn).
Arguments Ok {A} a.
Arguments Err {A} e.

Definition bind {A B} (m : res A) (f : A -> res B) : res B :=
  match m with Ok a => f a | Err e => Err e end.

Notation "'do' x <- m ; k" := (bind m (fun x => k))
  (at level 200, x pattern, m at level 100, k at level 200, right associativity).

Definition ret {A} (a : A) : res A := Ok a.

(** Monadic map: the first error stops the loop (a Python comprehension whose
    body may raise). *)
Fixpoint mapM {A B} (f : A -> res B) (l : list A) : res (list B) :=
  match l with
  | [] => Ok []
  | x :: xs => do y <- f x; do ys <- mapM f xs; Ok (y :: ys)
  end.

(** Monadic left fold: a Python [for] loop over a mutable state. *)
Fixpoint foldM {A S} (f : S -> A -> res S) (l : list A) (s : S) : res S :=
  match l with
  | [] => Ok s
  | x :: xs => do s' <- f s x; foldM f xs s'
  end.

Lemma bind_ok {A B} (m : res A) (f : A -> res B) b :
  bind m f = Ok b -> exists a, m = Ok a /\ f a = Ok b.
Proof. destruct m; simpl; intros H; [eauto | discriminate]. Qed.

Lemma mapM_ok {A B} (f : A -> res B) l ys :
  mapM f l = Ok ys -> Forall2 (fun x y => f x = Ok y) l ys.
Proof.
  revert ys; induction l as [|x xs IH]; simpl; intros ys H.
  - injection H as <-. constructor.
  - apply bind_ok in H as (y & Hy & H). apply bind_ok in H as (ys' & Hys & H).
    injection H as <-. constructor; auto.
Qed.

Lemma mapM_ok_intro {A B} (f : A -> res B) l (g : A -> B) :
  (forall x, In x l -> f x = Ok (g x)) -> mapM f l = Ok (map g l).
Proof.
  induction l as [|x xs IH]; simpl; intros H; auto.
  rewrite H by auto. simpl. rewrite IH by auto. reflexivity.
Qed.

(** ** Membership and association lists (Python [in] and [dict]) *)

Section Assoc.
  Context {K V : Type} (eqb : K -> K -> bool).

  Definition memb (x : K) (l : list K) : bool := existsb (eqb x) l.

  (** [d.get(k)] *)
  Fixpoint dget (d : list (K * V)) (k : K) : option V :=
    match d with
    | [] => None
    | (k', v) :: d' => if eqb k k' then Some v else dget d' k
    end.

  (** [d[k] = v]: overwrite in place, or append at the end. *)
  Fixpoint dset (d : list (K * V)) (k : K) (v : V) : list (K * V) :=
    match d with
    | [] => [(k, v)]
    | (k', v') :: d' => if eqb k k' then (k', v) :: d' else (k', v') :: dset d' k v
    end.

  (** [del d[k]] / [d.pop(k)] (no error when absent). *)
  Definition ddel (d : list (K * V)) (k : K) : list (K * V) :=
    filter (fun kv => negb (eqb k (fst kv))) d.

  Definition dkeys (d : list (K * V)) : list K := map fst d.

  Definition dhas (d : list (K * V)) (k : K) : bool := memb k (dkeys d).

  (** [d.update(e)] *)
  Definition dupdate (d e : list (K * V)) : list (K * V) :=
    fold_left (fun acc kv => dset acc (fst kv) (snd kv)) e d.

  Hypothesis eqb_spec : forall x y, reflect (x = y) (eqb x y).

  Lemma memb_In x l : memb x l = true <-> In x l.
  Proof.
    unfold memb. rewrite existsb_exists. split.
    - intros (y & Hy & E). destruct (eqb_spec x y); subst; auto; discriminate.
    - intros H. exists x. split; auto. destruct (eqb_spec x x); auto.
  Qed.

  Lemma memb_false x l : memb x l = false <-> ~ In x l.
  Proof.
    rewrite <- memb_In. destruct (memb x l); split; intros; congruence.
  Qed.

  Lemma eqb_refl' x : eqb x x = true.
  Proof. destruct (eqb_spec x x); auto. Qed.

  Lemma dget_In d k v : dget d k = Some v -> In (k, v) d.
  Proof.
    induction d as [|[k' v'] d IH]; simpl; [discriminate|].
    destruct (eqb_spec k k') as [->|N].
    - intros [= ->]; auto.
    - auto.
  Qed.

  Lemma dget_None d k : dget d k = None <-> ~ In k (dkeys d).
  Proof.
    induction d as [|[k' v'] d IH]; simpl.
    - split; auto.
    - destruct (eqb_spec k k') as [->|N].
      + split; [discriminate | intros H; exfalso; apply H; auto].
      + rewrite IH. split; intros H; [intros [E|E]; [congruence|auto] | auto].
  Qed.

  Lemma dget_Some_key d k v : dget d k = Some v -> In k (dkeys d).
  Proof.
    intros H. apply dget_In in H. apply in_map_iff. exists (k, v); auto.
  Qed.

  Lemma dget_key_Some d k : In k (dkeys d) -> exists v, dget d k = Some v.
  Proof.
    intros H. destruct (dget d k) eqn:E; eauto.
    apply dget_None in E. contradiction.
  Qed.

  Lemma In_dget d k v : NoDup (dkeys d) -> In (k, v) d -> dget d k = Some v.
  Proof.
    induction d as [|[k' v'] d IH]; simpl; [tauto|].
    intros ND [E|E].
    - injection E as -> ->. rewrite eqb_refl'. auto.
    - inversion ND; subst. destruct (eqb_spec k k') as [->|N]; auto.
      exfalso. apply H1. apply in_map_iff. exists (k', v); auto.
  Qed.

  Lemma dget_dset_same d k v : dget (dset d k v) k = Some v.
  Proof.
    induction d as [|[k' v'] d IH]; simpl.
    - rewrite eqb_refl'; auto.
    - destruct (eqb_spec k k') as [->|N]; simpl.
      + rewrite eqb_refl'; auto.
      + destruct (eqb_spec k k'); [congruence|auto].
  Qed.

  Lemma dget_dset_other d k k' v : k <> k' -> dget (dset d k v) k' = dget d k'.
  Proof.
    intros N. induction d as [|[k0 v0] d IH]; simpl.
    - destruct (eqb_spec k' k); [congruence|auto].
    - destruct (eqb_spec k k0) as [->|N0]; simpl.
      + destruct (eqb_spec k' k0); [congruence|auto].
      + destruct (eqb_spec k' k0); auto.
  Qed.

  Lemma dget_dset d k k' v :
    dget (dset d k v) k' = if eqb k' k then Some v else dget d k'.
  Proof.
    destruct (eqb_spec k' k) as [->|N].
    - apply dget_dset_same.
    - apply dget_dset_other; congruence.
  Qed.

  Lemma dkeys_dset d k v :
    dkeys (dset d k v) = if dhas d k then dkeys d else dkeys d ++ [k].
  Proof.
    unfold dhas. induction d as [|[k' v'] d IH]; simpl; auto.
    destruct (eqb_spec k k') as [->|N]; simpl; auto.
    fold (dkeys (dset d k v)). rewrite IH.
    unfold memb in *. simpl. fold (dkeys d).
    destruct (existsb (eqb k) (dkeys d)); auto.
  Qed.

  Lemma dkeys_dset_In d k v x : In x (dkeys (dset d k v)) <-> x = k \/ In x (dkeys d).
  Proof.
    rewrite dkeys_dset. destruct (dhas d k) eqn:E.
    - split; auto. intros [->|H]; auto. apply memb_In; auto.
    - rewrite in_app_iff; simpl. intuition congruence.
  Qed.

  Lemma dset_NoDup d k v : NoDup (dkeys d) -> NoDup (dkeys (dset d k v)).
  Proof.
    intros ND. rewrite dkeys_dset. destruct (dhas d k) eqn:E; auto.
    apply memb_false in E.
    apply (Permutation_NoDup (l := k :: dkeys d)).
    - apply Permutation_cons_append.
    - constructor; auto.
  Qed.

  Lemma dget_ddel_same d k : dget (ddel d k) k = None.
  Proof.
    apply dget_None. unfold ddel, dkeys. intros H.
    apply in_map_iff in H as ([k' v] & E & H). apply filter_In in H as [_ H].
    simpl in *. subst. rewrite eqb_refl' in H. discriminate.
  Qed.

  Lemma dget_ddel_other d k k' : k <> k' -> dget (ddel d k) k' = dget d k'.
  Proof.
    intros N. induction d as [|[k0 v0] d IH]; simpl; auto.
    destruct (eqb_spec k k0) as [->|N0]; simpl.
    - destruct (eqb_spec k' k0); [congruence|auto].
    - destruct (eqb_spec k' k0); auto.
  Qed.

  Lemma ddel_NoDup d k : NoDup (dkeys d) -> NoDup (dkeys (ddel d k)).
  Proof.
    induction d as [|[k' v] d IH]; simpl; auto. intros ND. inversion ND; subst.
    destruct (negb (eqb k k')); simpl; auto. constructor; auto.
    intros H. apply H1. unfold ddel, dkeys in *.
    apply in_map_iff in H as (x & E & H). apply filter_In in H as [H _].
    apply in_map_iff; eauto.
  Qed.

  Lemma ddel_keys_In d k x : In x (dkeys (ddel d k)) <-> In x (dkeys d) /\ x <> k.
  Proof.
    unfold ddel, dkeys. rewrite !in_map_iff. split.
    - intros ([k' v] & E & H). apply filter_In in H as [H1 H2]. simpl in *. subst.
      split; [exists (x, v); auto|]. intros ->. rewrite eqb_refl' in H2. discriminate.
    - intros [([k' v] & E & H) N]. simpl in *; subst. exists (x, v). split; auto.
      apply filter_In. split; auto. simpl. destruct (eqb_spec k x); simpl; congruence.
  Qed.

  Lemma dupdate_NoDup d e : NoDup (dkeys d) -> NoDup (dkeys (dupdate d e)).
  Proof.
    unfold dupdate. revert d. induction e as [|[k v] e IH]; simpl; auto.
    intros d ND. apply IH. apply dset_NoDup; auto.
  Qed.

  (** The last binding in [e] wins, otherwise the binding in [d] stays. *)
  Lemma dget_dupdate d e k :
    dget (dupdate d e) k = match dget (rev e) k with Some v => Some v | None => dget d k end.
  Proof.
    unfold dupdate. revert d. induction e as [|[k0 v0] e IH]; simpl; auto.
    intros d. rewrite IH. rewrite dget_dset.
    assert (A : forall l, dget (l ++ [(k0, v0)]) k =
                match dget l k with Some v => Some v
                | None => if eqb k k0 then Some v0 else None end).
    { induction l as [|[a b] l IHl]; simpl; auto. destruct (eqb k a); auto. }
    rewrite A. destruct (dget (rev e) k); auto. destruct (eqb k k0); auto.
  Qed.

  Lemma dget_rev_NoDup e k : NoDup (dkeys e) -> dget (rev e) k = dget e k.
  Proof.
    intros ND. destruct (dget e k) eqn:E.
    - apply In_dget.
      + unfold dkeys. rewrite map_rev. apply (Permutation_NoDup (Permutation_rev _)). auto.
      + apply in_rev. rewrite rev_involutive. apply dget_In; auto.
    - apply dget_None. apply dget_None in E. unfold dkeys in *. rewrite map_rev.
      intros H. apply E. apply in_rev; auto.
  Qed.
End Assoc.

(** ** Insertion sort: Python's [sorted] (stable) for a boolean order. *)
Section Sort.
  Context {A : Type} (leb : A -> A -> bool).

  Fixpoint insert_s (x : A) (l : list A) : list A :=
    match l with
    | [] => [x]
    | y :: ys => if leb x y then x :: y :: ys else y :: insert_s x ys
    end.

  Fixpoint isort (l : list A) : list A :=
    match l with
    | [] => []
    | x :: xs => insert_s x (isort xs)
    end.

  Lemma insert_s_perm x l : Permutation (x :: l) (insert_s x l).
  Proof.
    induction l as [|y ys IH]; simpl; auto.
    destruct (leb x y); auto.
    rewrite perm_swap. constructor. auto.
  Qed.

  Lemma isort_perm l : Permutation l (isort l).
  Proof.
    induction l as [|x xs IH]; simpl; auto.
    rewrite <- insert_s_perm. constructor; auto.
  Qed.

  Lemma isort_In x l : In x (isort l) <-> In x l.
  Proof.
    split; apply Permutation_in; [symmetry|]; apply isort_perm.
  Qed.

  Lemma isort_NoDup l : NoDup l -> NoDup (isort l).
  Proof. apply Permutation_NoDup, isort_perm. Qed.

  Lemma isort_length l : List.length (isort l) = List.length l.
  Proof. symmetry. apply Permutation_length, isort_perm. Qed.

  Hypothesis leb_total : forall x y, leb x y = true \/ leb y x = true.
  Hypothesis leb_trans : forall x y z, leb x y = true -> leb y z = true -> leb x z = true.

  Let R x y := leb x y = true.

  Lemma insert_s_sorted x l : StronglySorted R l -> StronglySorted R (insert_s x l).
  Proof.
    induction 1 as [|y ys H IH F]; simpl.
    - repeat constructor.
    - destruct (leb x y) eqn:E.
      + constructor; [constructor; auto|]. constructor; auto.
        eapply Forall_impl; [|exact F]. intros z Hz. unfold R in *. eauto.
      + constructor; auto. rewrite Forall_forall in *. intros z Hz.
        apply (Permutation_in z (Permutation_sym (insert_s_perm x ys))) in Hz.
        destruct Hz as [->|Hz]; auto.
        unfold R. destruct (leb_total z y); congruence.
  Qed.

  Lemma isort_sorted l : StronglySorted R (isort l).
  Proof.
    induction l; simpl; [constructor|]. apply insert_s_sorted; auto.
  Qed.

  Hypothesis leb_antisym : forall x y, leb x y = true -> leb y x = true -> x = y.

  Lemma sorted_perm_unique l1 l2 :
    StronglySorted R l1 -> StronglySorted R l2 -> Permutation l1 l2 -> l1 = l2.
  Proof.
    revert l2. induction l1 as [|x xs IH]; intros l2 S1 S2 P.
    - apply Permutation_nil in P. auto.
    - destruct l2 as [|y ys].
      + symmetry in P. apply Permutation_nil in P. discriminate.
      + inversion S1 as [|? ? S1' F1]; inversion S2 as [|? ? S2' F2]; subst.
        assert (x = y).
        { assert (Hy : In y (x :: xs)) by (eapply Permutation_in; [symmetry; eauto | left; auto]).
          assert (Hx : In x (y :: ys)) by (eapply Permutation_in; [eauto | left; auto]).
          destruct Hy as [->|Hy]; auto. destruct Hx as [->|Hx]; auto.
          rewrite Forall_forall in F1, F2. apply leb_antisym; [apply F1|apply F2]; auto. }
        subst. f_equal. apply IH; auto. eapply Permutation_cons_inv; eauto.
  Qed.

  Lemma isort_perm_eq l1 l2 : Permutation l1 l2 -> isort l1 = isort l2.
  Proof.
    intros P. apply sorted_perm_unique; try apply isort_sorted.
    rewrite <- !isort_perm. auto.
  Qed.

  Lemma isort_sorted_id l : StronglySorted R l -> isort l = l.
  Proof.
    intros S. symmetry. apply sorted_perm_unique; auto.
    - apply isort_sorted.
    - apply isort_perm.
  Qed.

  Lemma isort_idem l : isort (isort l) = isort l.
  Proof. apply isort_sorted_id, isort_sorted. Qed.
End Sort.

(** ** Strings: Python's order on (ASCII) strings is [String.compare]. *)

Lemma ascii_compare_eq a b : Ascii.compare a b = Eq <-> a = b.
Proof.
  split.
  - apply Ascii.compare_eq_iff.
  - intros ->. unfold Ascii.compare. apply N.compare_refl.
Qed.

Lemma ascii_compare_lt_trans a b c :
  Ascii.compare a b = Lt -> Ascii.compare b c = Lt -> Ascii.compare a c = Lt.
Proof.
  unfold Ascii.compare. rewrite !N.compare_lt_iff. lia.
Qed.

Lemma string_compare_refl s : String.compare s s = Eq.
Proof.
  induction s; simpl; auto. rewrite (proj2 (ascii_compare_eq a a) eq_refl). auto.
Qed.

Lemma string_compare_lt_trans a b c :
  String.compare a b = Lt -> String.compare b c = Lt -> String.compare a c = Lt.
Proof.
  revert b c. induction a as [|x a IH]; intros [|y b] [|z c]; simpl; auto; try discriminate.
  destruct (Ascii.compare x y) eqn:E1; try discriminate;
  destruct (Ascii.compare y z) eqn:E2; try discriminate.
  - apply ascii_compare_eq in E1; apply ascii_compare_eq in E2; subst.
    rewrite (proj2 (ascii_compare_eq z z) eq_refl). apply IH.
  - apply ascii_compare_eq in E1; subst. rewrite E2. auto.
  - apply ascii_compare_eq in E2; subst. rewrite E1. auto.
  - rewrite (ascii_compare_lt_trans _ _ _ E1 E2). auto.
Qed.

Definition sleb (a b : string) : bool :=
  match String.compare a b with Gt => false | _ => true end.

Lemma sleb_total a b : sleb a b = true \/ sleb b a = true.
Proof.
  unfold sleb. rewrite (String.compare_antisym a b).
  destruct (String.compare b a); simpl; auto.
Qed.

Lemma sleb_antisym a b : sleb a b = true -> sleb b a = true -> a = b.
Proof.
  unfold sleb. rewrite (String.compare_antisym a b).
  destruct (String.compare b a) eqn:E; simpl; try discriminate; intros.
  symmetry. apply String.compare_eq_iff; auto.
Qed.

Lemma sleb_trans a b c : sleb a b = true -> sleb b c = true -> sleb a c = true.
Proof.
  unfold sleb. destruct (String.compare a b) eqn:E1; try discriminate;
  destruct (String.compare b c) eqn:E2; try discriminate; intros _ _.
  - apply String.compare_eq_iff in E1; apply String.compare_eq_iff in E2; subst.
    rewrite string_compare_refl; auto.
  - apply String.compare_eq_iff in E1; subst. rewrite E2; auto.
  - apply String.compare_eq_iff in E2; subst. rewrite E1; auto.
  - rewrite (string_compare_lt_trans _ _ _ E1 E2). auto.
Qed.

Lemma sleb_refl a : sleb a a = true.
Proof. unfold sleb. rewrite string_compare_refl. auto. Qed.

Definition ssort : list string -> list string := isort sleb.

Lemma ssort_perm_eq l1 l2 : Permutation l1 l2 -> ssort l1 = ssort l2.
Proof.
  apply isort_perm_eq; [apply sleb_total | apply sleb_trans | apply sleb_antisym].
Qed.

Lemma ssort_idem l : ssort (ssort l) = ssort l.
Proof.
  apply isort_idem; [apply sleb_total | apply sleb_trans | apply sleb_antisym].
Qed.

Notation smem := (memb String.eqb).

Lemma smem_In x l : smem x l = true <-> In x l.
Proof. apply memb_In, String.eqb_spec. Qed.

Lemma smem_false x l : smem x l = false <-> ~ In x l.
Proof. apply memb_false, String.eqb_spec. Qed.

(** ** State labels: Python ints or strings. *)
Inductive label : Type :=
| LInt (z : Z)
| LStr (s : string).

Definition label_eqb (a b : label) : bool :=
  match a, b with
  | LInt x, LInt y => Z.eqb x y
  | LStr x, LStr y => String.eqb x y
  | _, _ => false
  end.

Lemma label_eqb_spec a b : reflect (a = b) (label_eqb a b).
Proof.
  destruct a, b; simpl; try (constructor; congruence).
  - destruct (Z.eqb_spec z z0); constructor; congruence.
  - destruct (String.eqb_spec s s0); constructor; congruence.
Qed.

(** A total order on labels.  Python compares ints with ints and strings with
    strings; a mixed comparison raises and is guarded by [same_kind]. *)
Definition label_leb (a b : label) : bool :=
  match a, b with
  | LInt x, LInt y => Z.leb x y
  | LStr x, LStr y => sleb x y
  | LInt _, LStr _ => true
  | LStr _, LInt _ => false
  end.

Lemma label_leb_total a b : label_leb a b = true \/ label_leb b a = true.
Proof.
  destruct a, b; simpl; auto.
  - rewrite !Z.leb_le. lia.
  - apply sleb_total.
Qed.

Lemma label_leb_trans a b c :
  label_leb a b = true -> label_leb b c = true -> label_leb a c = true.
Proof.
  destruct a, b, c; simpl; auto; try discriminate.
  - rewrite !Z.leb_le. lia.
  - apply sleb_trans.
Qed.

Lemma label_leb_antisym a b : label_leb a b = true -> label_leb b a = true -> a = b.
Proof.
  destruct a, b; simpl; auto; try discriminate.
  - rewrite !Z.leb_le. intros. f_equal; lia.
  - intros. f_equal. apply sleb_antisym; auto.
Qed.

Notation lmem := (memb label_eqb).

Lemma lmem_In x l : lmem x l = true <-> In x l.
Proof. apply memb_In, label_eqb_spec. Qed.

Lemma lmem_false x l : lmem x l = false <-> ~ In x l.
Proof. apply memb_false, label_eqb_spec. Qed.

(** ** Python [itertools] *)

(** [itertools.combinations(l, 2)] *)
Fixpoint pairs2 {A} (l : list A) : list (A * A) :=
  match l with
  | [] => []
  | x :: xs => map (pair x) xs ++ pairs2 xs
  end.

(** [itertools.product( *ls )]: the last factor varies fastest. *)
Fixpoint cart {A} (ls : list (list A)) : list (list A) :=
  match ls with
  | [] => [[]]
  | l :: ls' => flat_map (fun x => map (cons x) (cart ls')) l
  end.

Lemma pairs2_In {A} (l : list A) a b : In (a, b) (pairs2 l) -> In a l /\ In b l.
Proof.
  induction l as [|x xs IH]; simpl; [tauto|].
  rewrite in_app_iff. intros [H|H].
  - apply in_map_iff in H as (y & [= <- <-] & Hy). auto.
  - apply IH in H. tauto.
Qed.

Lemma pairs2_total {A} (l : list A) a b :
  In a l -> In b l -> a <> b -> In (a, b) (pairs2 l) \/ In (b, a) (pairs2 l).
Proof.
  induction l as [|x xs IH]; simpl; [tauto|].
  intros [->|Ha] [->|Hb] N; try congruence; rewrite !in_app_iff, !in_map_iff.
  - left; left; exists b; auto.
  - right; left; exists a; auto.
  - destruct (IH Ha Hb N); auto.
Qed.

Lemma cart_In {A} (ls : list (list A)) x :
  In x (cart ls) <-> Forall2 (fun a l => In a l) x ls.
Proof.
  revert x; induction ls as [|l ls IH]; simpl; intros x.
  - split.
    + intros [<-|[]]. constructor.
    + intros H; inversion H; auto.
  - rewrite in_flat_map. split.
    + intros (a & Ha & H). apply in_map_iff in H as (y & <- & Hy). constructor; auto. apply IH; auto.
    + intros H; inversion H; subst. exists x0. split; auto. apply in_map_iff. exists l0. split; auto.
      apply IH; auto.
Qed.

(** Tactic: split conjunctions in hypotheses. *)
Ltac inv H := inversion H; subst; clear H.
