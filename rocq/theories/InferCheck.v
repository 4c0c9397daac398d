(** * InferCheck: a computable test for the hypotheses of the inference theorems (used for the examples). *)
From Coq Require Import List Bool Arith ZArith Lia String QArith Qcanon Permutation Relations.
From Verif Require Import Base QcX Digraph BbnModel InferModel InferSpec InferProofs InferEngine InferOps InferThms.
Import ListNotations.
Local Open Scope Qc_scope.
Local Open Scope list_scope.

Section NoDupB.
  Context {A : Type} (eqb : A -> A -> bool) (sp : forall x y, reflect (x = y) (eqb x y)).
  Definition memb (x : A) (l : list A) : bool := existsb (eqb x) l.
  Fixpoint nodupb (l : list A) : bool :=
    match l with [] => true | x :: r => negb (memb x r) && nodupb r end.

  Lemma memb_In x l : memb x l = true <-> In x l.
  Proof.
    unfold memb. rewrite existsb_exists. split.
    - intros (y & H & E). destruct (sp x y); [subst; auto|discriminate].
    - intros H. exists x. split; auto. destruct (sp x x); auto.
  Qed.

  Lemma nodupb_sound l : nodupb l = true -> NoDup l.
  Proof.
    induction l as [|x l IH]; cbn [nodupb]; intros H; constructor; apply andb_true_iff in H as [H1 H2]; auto.
    intros Hin. apply memb_In in Hin. rewrite Hin in H1. discriminate.
  Qed.

  Definition inclb (a b : list A) : bool := forallb (fun x => memb x b) a.
  Lemma inclb_sound a b : inclb a b = true -> incl a b.
  Proof. unfold inclb. rewrite forallb_forall. intros H x Hx. apply memb_In, H; auto. Qed.
End NoDupB.

Fixpoint choices {A} (ls : list (list A)) : list (list A) :=
  match ls with
  | [] => [[]]
  | l :: r => flat_map (fun x => map (cons x) (choices r)) l
  end.

Lemma choices_In {A} (ls : list (list A)) xs : In xs (choices ls) <-> Forall2 (fun l x => In x l) ls xs.
Proof.
  revert xs. induction ls as [|l ls IH]; intros xs; cbn [choices].
  - split.
    + intros [<-|[]]. constructor.
    + intros H. inversion H. left; auto.
  - rewrite in_flat_map. split.
    + intros (x & Hx & H). apply in_map_iff in H as (r & <- & Hr). constructor; auto. apply IH; auto.
    + intros H. inversion H; subst. exists y. split; auto. apply in_map_iff. eexists. split; [reflexivity|]. apply IH; auto.
Qed.

Lemma Forall2_map_l {A B C} (f : A -> B) (R : B -> C -> Prop) l m :
  Forall2 R (map f l) m <-> Forall2 (fun a c => R (f a) c) l m.
Proof.
  revert m. induction l as [|a l IH]; intros m; cbn [map]; split; intros H; inversion H; subst; constructor; auto; apply IH; auto.
Qed.

Definition combos (N : net) (ps : list string) : list (list label) := choices (map (states_of N) ps).

Lemma combos_In N ps cs : In cs (combos N ps) <-> Forall2 (fun p x => In x (states_of N p)) ps cs.
Proof. unfold combos. rewrite choices_In, Forall2_map_l. reflexivity. Qed.

(** frames_ok *)
Definition frame_okb (N : net) (fr : frame) : bool :=
  (List.length (fr_rows fr) =? List.length (fr_index fr))%nat &&
  forallb (fun row => List.length row =? List.length (fr_columns fr))%nat (fr_rows fr) &&
  nodupb labels_eqb (fr_columns fr) &&
  inclb labels_eqb (fr_columns fr) (combos N (fr_names fr)) &&
  inclb labels_eqb (combos N (fr_names fr)) (fr_columns fr).

Definition frames_okb (bn : bnet) : bool :=
  forallb (fun vf => frame_okb (net_of bn) (snd vf)) (bn_cpds bn) &&
  inclb String.eqb (bn_nodes bn) (map fst (bn_cpds bn)) && inclb String.eqb (map fst (bn_cpds bn)) (bn_nodes bn).

Lemma frames_okb_sound bn : frames_okb bn = true -> frames_ok bn.
Proof.
  unfold frames_okb. rewrite !andb_true_iff, forallb_forall. intros [[H I1] I2].
  apply (inclb_sound _ String.eqb_spec) in I1. apply (inclb_sound _ String.eqb_spec) in I2.
  assert (F : forall v fr, In (v, fr) (bn_cpds bn) -> frame_okb (net_of bn) fr = true) by (intros v fr Hin; apply (H _ Hin)).
  unfold frame_okb in F. constructor; intros.
  - specialize (F v fr H0). rewrite !andb_true_iff in F. apply Nat.eqb_eq. tauto.
  - specialize (F v fr H0). rewrite !andb_true_iff, forallb_forall in F. apply Nat.eqb_eq. apply F; auto.
  - specialize (F v fr H0). rewrite !andb_true_iff in F. apply (nodupb_sound _ labels_eqb_spec). tauto.
  - specialize (F v fr H0). rewrite !andb_true_iff in F. destruct F as [[_ F1] F2].
    apply (inclb_sound _ labels_eqb_spec) in F1. apply (inclb_sound _ labels_eqb_spec) in F2.
    rewrite <- combos_In. split; auto.
  - split; auto.
Qed.

Definition shape_okb (N : net) : bool :=
  nodupb String.eqb (vars N) && negb (match N with [] => true | _ => false end) &&
  forallb (fun vc => negb (match states (snd vc) with [] => true | _ => false end) && nodupb label_eqb (states (snd vc)) &&
                     nodupb String.eqb (parents (snd vc)) && inclb String.eqb (parents (snd vc)) (vars N) &&
                     forallb (fun s => forallb (fun ps => negb (Qcltb (prob (snd vc) s ps) 0)) (combos N (parents (snd vc)))) (states (snd vc))) N &&
  is_dag String.eqb (parent_arrows N).

Lemma shape_okb_sound N : shape_okb N = true -> shape_ok N.
Proof.
  unfold shape_okb. rewrite !andb_true_iff, forallb_forall. intros [[[H1 H2] H3] H4].
  assert (F : forall v c, In (v, c) N -> (states c <> [] /\ NoDup (states c)) /\ (NoDup (parents c) /\ incl (parents c) (vars N)) /\
    forall s ps, In s (states c) -> In ps (combos N (parents c)) -> 0 <= prob c s ps).
  { intros v c Hin. specialize (H3 _ Hin). cbn [snd] in H3. rewrite !andb_true_iff in H3. destruct H3 as [[[[A B] C] D] E].
    split; [|split].
    - split; [destruct (states c); [discriminate|congruence]|apply (nodupb_sound _ label_eqb_spec); auto].
    - split; [apply (nodupb_sound _ String.eqb_spec); auto|apply (inclb_sound _ String.eqb_spec); auto].
    - intros s ps Hs Hp. rewrite forallb_forall in E. specialize (E s Hs). rewrite forallb_forall in E. specialize (E ps Hp).
      apply Qcnot_lt_le. intros L. apply Qcltb_lt in L. rewrite L in E. discriminate. }
  constructor.
  - apply (nodupb_sound _ String.eqb_spec); auto.
  - destruct N; [discriminate|congruence].
  - intros v c Hin. apply (F v c Hin).
  - intros v c Hin. apply (F v c Hin).
  - apply (is_dag_acyclic String.eqb String.eqb_spec). auto.
  - intros v c s ps Hin Hs Hp. apply (F v c Hin); auto. apply combos_In; auto.
Qed.

Definition columns_b (N : net) : bool :=
  forallb (fun vc => forallb (fun ps => Qc_eq_bool (Qsum (fun s => prob (snd vc) s ps) (states (snd vc))) 1) (combos N (parents (snd vc)))) N.

Lemma columns_b_sound N : columns_b N = true -> columns_sum_1 N.
Proof.
  unfold columns_b. rewrite forallb_forall. intros H v c ps Hin Hp. specialize (H _ Hin). cbn [snd] in H.
  rewrite forallb_forall in H. apply Qc_eq_bool_correct. apply H. apply combos_In; auto.
Qed.

Definition names_b (N : net) : bool := forallb is_identifier (vars N) && negb (smem "self"%string (vars N)).

Lemma names_b_sound N : names_b N = true -> names_ok N.
Proof.
  unfold names_b. rewrite andb_true_iff, forallb_forall. intros [H1 H2]. split; auto.
  apply smem_false. destruct (smem "self"%string (vars N)); [discriminate|auto].
Qed.

(** Variables joined to the members of a list. *)
Definition widen (es : list (string * string)) (l : list string) : list string :=
  fold_left (fun l e => if memb String.eqb (fst e) l then (if memb String.eqb (snd e) l then l else snd e :: l)
                        else if memb String.eqb (snd e) l then fst e :: l else l) es l.

Fixpoint widen_n (n : nat) es l := match n with O => l | S k => widen_n k es (widen es l) end.

Definition joined_b (N : net) : bool :=
  match vars N with
  | [] => true
  | x :: _ => inclb String.eqb (vars N) (widen_n (List.length N) (parent_arrows N) [x])
  end.

Section Widen.
  Variables (es : list (string * string)) (x : string).
  Let R := clos_refl_trans string (fun u v => In (u, v) es \/ In (v, u) es).

  Lemma widen_sound l : Forall (R x) l -> Forall (R x) (widen es l).
  Proof.
    unfold widen. assert (G : forall es', incl es' es -> forall l, Forall (R x) l -> Forall (R x) (fold_left (fun l e =>
      if memb String.eqb (fst e) l then (if memb String.eqb (snd e) l then l else snd e :: l)
      else if memb String.eqb (snd e) l then fst e :: l else l) es' l)).
    { induction es' as [|[a b] es' IH]; intros I l0 H; cbn [fold_left fst snd]; auto.
      apply IH; [intros y Hy; apply I; right; auto|].
      assert (Hab : In (a, b) es) by (apply I; left; auto).
      destruct (memb String.eqb a l0) eqn:Ea; destruct (memb String.eqb b l0) eqn:Eb; auto.
      - constructor; auto. apply (memb_In _ String.eqb_spec) in Ea. rewrite Forall_forall in H.
        apply rt_trans with a; [apply H; auto|]. apply rt_step. auto.
      - constructor; auto. apply (memb_In _ String.eqb_spec) in Eb. rewrite Forall_forall in H.
        apply rt_trans with b; [apply H; auto|]. apply rt_step. auto. }
    apply G. apply incl_refl.
  Qed.

  Lemma widen_n_sound n : forall l, Forall (R x) l -> Forall (R x) (widen_n n es l).
  Proof. induction n as [|n IH]; intros l H; cbn [widen_n]; auto. apply IH, widen_sound; auto. Qed.

  Lemma R_sym a b : R a b -> R b a.
  Proof.
    intros H. induction H as [a b H|a|a b c _ IH1 _ IH2]; [apply rt_step; tauto|apply rt_refl|].
    apply rt_trans with b; auto.
  Qed.
End Widen.

Lemma joined_b_sound N : joined_b N = true -> joined N.
Proof.
  unfold joined_b, joined. destruct (vars N) as [|r vs] eqn:E; [intros _ x y []|].
  intros H x y Hx Hy. apply (inclb_sound _ String.eqb_spec) in H.
  pose proof (widen_n_sound (parent_arrows N) r (List.length N) [r]) as F.
  assert (B : Forall (clos_refl_trans string (fun u v => In (u, v) (parent_arrows N) \/ In (v, u) (parent_arrows N)) r) [r])
    by (constructor; [apply rt_refl|constructor]).
  specialize (F B). clear B. rewrite Forall_forall in F. apply rt_trans with r.
  - apply (R_sym _ r). apply F, H; auto.
  - apply F, H; auto.
Qed.

Definition good_shape_b (bn : bnet) : bool :=
  frames_okb bn && shape_okb (net_of bn) && names_b (net_of bn) && joined_b (net_of bn).
Definition good_bn_b (bn : bnet) : bool := good_shape_b bn && columns_b (net_of bn).

Lemma good_shape_sound bn : good_shape_b bn = true -> good_shape bn.
Proof.
  unfold good_shape_b. rewrite !andb_true_iff. intros [[[A B] C] D].
  exact (conj (frames_okb_sound _ A) (conj (shape_okb_sound _ B) (conj (names_b_sound _ C) (joined_b_sound _ D)))).
Qed.

Lemma good_bn_sound bn : good_bn_b bn = true -> good_bn bn.
Proof.
  unfold good_bn_b. rewrite andb_true_iff. intros [A E]. apply good_shape_sound in A as (A & B & C & D).
  exact (conj A (conj B (conj (columns_b_sound _ E) (conj C D)))).
Qed.
