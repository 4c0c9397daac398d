(** * ConsistNet: the probabilities of a network fitted by either method, one family at a time. *)
From Coq Require Import List Bool Arith ZArith Lia String QArith Qcanon Permutation Relations.
From Verif Require Import Base QcX Digraph BbnModel SumOver SmModel SmProofs SmHist SmThms NetModel NetProofs NetFit NetThms NetBridge NetEquiv NetMoral NetMarkov.
From Verif Require Kruskal InferModel InferSpec InferProofs InferEngine InferOps InferMain InferThms CausalThms CausalCore.
Import ListNotations.
Local Open Scope list_scope.

Section Fitted.
  Import InferSpec InferEngine InferMain CausalThms.
  Local Open Scope Qc_scope.
  Context (S : list (string * list label)) (b : bn) (d : df) (method : string) (prior : option string) (ess : option Qc).
  Let N := learned S b d method prior ess.
  Let sm (v : string) := asked_smoothing method prior ess (List.length (declared S v)) (List.length (product (map (declared S) (ssort (get_parents b v))))).
  Context (NO : net_ok b) (SO : shape_ok N) (CS : columns_sum_1 N).
  Context (US : filter (usable (declared S) (b_nodes b)) (d_rows d) = d_rows d).

  Lemma F_vars v : In v (vars N) <-> In v (b_nodes b).
  Proof. unfold N, learned, vars. rewrite map_map. cbn [fst]. rewrite map_id. split; apply Permutation_in; [|symmetry]; apply ssort_Perm. Qed.
  Lemma F_In v : In v (b_nodes b) -> exists c, In (v, c) N /\ states c = declared S v /\ parents c = ssort (get_parents b v) /\
    forall s u, prob c s u = frequency (sm v) (declared S) (d_rows d) v (ssort (get_parents b v)) s u.
  Proof.
    intros H. apply (Permutation_in _ (Permutation_sym (ssort_Perm _))) in H. eexists. split.
    - unfold N, learned. apply in_map_iff. exists v. split; [reflexivity|auto].
    - cbn [states parents prob]. rewrite US. auto.
  Qed.
  Lemma F_states v : In v (b_nodes b) -> states_of N v = declared S v.
  Proof. intros H. destruct (F_In v H) as (c & I & E & _). rewrite <- E. apply InferProofs.states_of_In; auto. apply SO. Qed.
  Lemma F_nodup v : In v (b_nodes b) -> NoDup (declared S v) /\ declared S v <> [].
  Proof. intros H. destruct (F_In v H) as (c & I & E & _). rewrite <- E. destruct (ok_states N SO v c I). auto. Qed.
  Lemma F_arrow p v : In (p, v) (parent_arrows N) <-> In (p, v) (b_edges b).
  Proof.
    rewrite <- parents_arrow. rewrite parents_of_In. split.
    - intros (c & I & H). assert (Hv : In v (b_nodes b)) by (apply F_vars, in_map_iff; exists (v, c); auto).
      destruct (F_In v Hv) as (c' & I' & _ & E & _).
      assert (c = c').
      { assert (D : dget String.eqb N v = Some c) by (apply (In_dget _ String.eqb_spec); [apply SO|auto]).
        assert (D' : dget String.eqb N v = Some c') by (apply (In_dget _ String.eqb_spec); [apply SO|auto]). congruence. }
      subst c'. rewrite E in H. apply (Permutation_in _ (ssort_Perm _)), get_parents_In in H. auto.
    - intros H. assert (Hv : In v (b_nodes b)) by (apply (no_touch _ NO); exists p; auto).
      destruct (F_In v Hv) as (c & I & _ & E & _). exists c. split; auto. rewrite E.
      apply (Permutation_in _ (Permutation_sym (ssort_Perm _))), get_parents_In. auto.
  Qed.

  Lemma F_world f C w : In w (all_worlds N) -> observed (given f C) w = true -> forall v, In v C -> In v (b_nodes b) -> In (f v) (declared S v).
  Proof.
    intros Hw Ho v Hv Hb. assert (E : at_ w v = f v) by (apply (observed_In (given f C) w); auto; apply in_map_iff; exists v; auto).
    destruct (F_In v Hb) as (c & I & Es & _). rewrite <- E, <- Es.
    assert (R : In (at_ w v) (states_of N v)) by (apply all_worlds_state; auto; [apply SO|apply F_vars; auto]).
    rewrite F_states in R by auto. rewrite Es. auto.
  Qed.

  (** A state that was never seen has probability zero. *)
  Lemma F_unseen f C v : In v C -> In v (b_nodes b) -> ~ In (f v) (declared S v) -> Pr N (observed (given f C)) = 0.
  Proof.
    intros Hv Hb Ns. unfold Pr. rewrite (filter_ext_in _ (fun _ => false)).
    - replace (filter (fun _ => false) (all_worlds N)) with (@nil (list (string * label))); [reflexivity|]. induction (all_worlds N); auto.
    - intros w Hw. apply not_true_is_false. intros Ho. apply Ns. eapply F_world; eauto.
  Qed.

  Lemma F_cons f v C : Pr N (observed (given f (v :: C))) = Pr_and N (given f C) v (f v).
  Proof. unfold Pr_and. apply Pr_ext. intros w _. cbn [given map observed forallb fst snd]. rewrite andb_comm. auto. Qed.

  Lemma F_step v pre f : In v (b_nodes b) -> before b v pre -> (forall u, In u (v :: pre) -> In (f u) (declared S u)) ->
    Pr N (observed (given f (v :: pre))) = Pr N (observed (given f pre)) *
      frequency (sm v) (declared S) (d_rows d) v (ssort (get_parents b v)) (f v) (map f (ssort (get_parents b v))).
  Proof.
    intros Hv (ND & IP & Pa & Ds) Pf. destruct (F_In v Hv) as (c & I & Es & Ep & Et). rewrite F_cons.
    set (ps := ssort (get_parents b v)) in *. inversion ND as [|? ? Nv NDp]; subst.
    assert (Fst : map fst (given f pre) = pre) by (unfold given; rewrite map_map, map_id; auto).
    rewrite (markov_mass N v c (given f pre) SO CS I).
    - rewrite Et, Ep. replace (map (value_in (given f pre)) ps) with (map f ps) by (apply map_ext_in; intros p Hp; rewrite (value_given f pre); auto). auto.
    - split; [rewrite Fst; auto|]. intros u x H. apply in_map_iff in H as (p & [= <- <-] & Hp). split; [apply F_vars; auto|]. rewrite F_states by auto. apply Pf. right. auto.
    - rewrite Ep, Fst. exact Pa.
    - rewrite Fst. intros x Hx. split; [intros ->; auto|]. intros P. apply (Ds x Hx). revert P. apply path_mono. intros [u w] H. apply F_arrow. auto.
    - rewrite Es. apply Pf. left. auto.
  Qed.

  (** Summing out one variable, over any list of values that contains its states. *)
  Lemma F_drop f v C dom : In v (b_nodes b) -> ~ In v C -> NoDup dom -> incl (declared S v) dom ->
    Pr N (observed (given f C)) = Qsum (fun s => Pr N (observed (given (set_to f v s) (v :: C)))) dom.
  Proof.
    intros Hv Nv NDd Inc. rewrite <- (Pr_and_sum N SO (given f C) v) by (apply F_vars; auto). rewrite F_states by auto.
    assert (E : forall s, Pr N (observed (given (set_to f v s) (v :: C))) = Pr_and N (given f C) v s).
    { intros s. rewrite F_cons, set_same. f_equal. apply given_ext. intros u Hu. apply set_other. intros ->. auto. }
    rewrite (Qsum_ext (fun s => Pr N (observed (given (set_to f v s) (v :: C)))) (Pr_and N (given f C) v) dom) by (intros; apply E).
    assert (Z : forall s, ~ In s (declared S v) -> Pr_and N (given f C) v s = 0).
    { intros s Ns. rewrite <- E. apply (F_unseen _ (v :: C) v); [left; auto|auto|rewrite set_same; auto]. }
    destruct (F_nodup v Hv) as [NDs _]. revert NDs Inc Z. generalize (declared S v) as L, (Pr_and N (given f C) v) as h. clear -NDd. intros L h NDs Inc Z.
    rewrite (Qsum_ext h (fun s => if existsb (label_eqb s) L then h s else 0) dom).
    - rewrite <- Qsum_filter. apply Qsum_perm, NoDup_Permutation; auto; [apply NoDup_filter; auto|].
      intros x. rewrite filter_In. split.
      + intros Hx. split; auto. apply existsb_exists. exists x. split; auto. destruct (label_eqb_spec x x); congruence.
      + intros [_ Hx]. apply existsb_exists in Hx as (y & Hy & E). destruct (label_eqb_spec x y); [subst; auto|discriminate].
    - intros s _. destruct (existsb (label_eqb s) L) eqn:E; auto. apply Z. intros Hs.
      assert (existsb (label_eqb s) L = true) by (apply existsb_exists; exists s; split; auto; destruct (label_eqb_spec s s); congruence). congruence.
  Qed.

  Lemma F_nil f : Pr N (observed (given f [])) = 1.
  Proof.
    unfold given. cbn [map]. rewrite (Pr_ext N (observed []) (fun _ => true)) by auto.
    rewrite (CausalCore.Pr_keep N (fun _ => false) (fun _ => true) (fun _ => LInt 0) SO CS).
    + assert (K : forall l, CausalCore.keep (fun _ => false) l = []) by (intros l; induction l; auto). rewrite K. reflexivity.
    + intros v c I H. discriminate.
    + intros x y H. auto.
  Qed.

  (** What is added to the counts. *)
  Definition added (s : smoothing) : Qc := match s with MLE => 0 | Pseudo x => x end.

  Lemma F_seen r v x : In r (d_rows d) -> In v (b_nodes b) -> at_col r v = Some x -> In x (declared S v).
  Proof.
    rewrite <- US. intros H Hv E. apply filter_In in H as [_ H]. unfold usable in H. rewrite forallb_forall in H. specialize (H v Hv).
    apply existsb_exists in H as (y & Hy & K). unfold holds in K. rewrite E in K. destruct (label_eqb_spec x y); [subst; auto|discriminate].
  Qed.

  Lemma F_factor v pre f : In v (b_nodes b) -> before b v pre -> agree (d_rows d) f (ssort (get_parents b v)) <> 0%nat ->
    Pr N (observed (given f (v :: pre))) = Pr N (observed (given f pre)) *
      ((Qc_of_nat (agree (d_rows d) f (v :: ssort (get_parents b v))) + (if lmem (f v) (declared S v) then added (sm v) else 0)) /
       (Qc_of_nat (agree (d_rows d) f (ssort (get_parents b v))) + Qc_of_nat (List.length (declared S v)) * added (sm v))).
  Proof.
    intros Hv B Nz. destruct (lmem (f v) (declared S v)) eqn:Lv.
    - destruct (forallb (fun u => lmem (f u) (declared S u)) pre) eqn:Q.
      + rewrite forallb_forall in Q. rewrite (F_step v pre f Hv B) by (intros u [<-|Hu]; apply lmem_In; auto). f_equal.
        unfold frequency, added. rewrite occ_agree, occw_agree. destruct (sm v) as [|x]; auto.
        destruct (Nat.eqb_spec (agree (d_rows d) f (ssort (get_parents b v))) 0); [contradiction|]. f_equal; [ring|]. f_equal. ring.
      + assert (X : exists u, In u pre /\ lmem (f u) (declared S u) = false).
        { clear -Q. induction pre as [|x l IH]; [discriminate|]. cbn in Q. destruct (lmem (f x) (declared S x)) eqn:L; [|exists x; cbn; auto].
          destruct IH as (u & Hu & L'); [auto|]. exists u. cbn. auto. }
        destruct X as (u & Hu & L). assert (Nu : ~ In (f u) (declared S u)) by (intros H; apply lmem_In in H; congruence).
        destruct B as (_ & IP & _).
        rewrite (F_unseen f (v :: pre) u), (F_unseen f pre u); auto; [ring|right; auto].
    - assert (Nu : ~ In (f v) (declared S v)) by (intros H; apply lmem_In in H; congruence).
      rewrite (F_unseen f (v :: pre) v); auto; [|left; auto].
      rewrite (agree_unseen (d_rows d) f (v :: _) v (or_introl eq_refl)); [rewrite Qc_of_nat_0; unfold Qcdiv; ring|].
      intros r Hr E. apply Nu, (F_seen r v); auto.
  Qed.
End Fitted.
