(** * NetMoral: where the parents are linked, the fitted network reproduces the frequencies of the data. *)
From Coq Require Import List Bool Arith ZArith Lia String QArith Qcanon Permutation Relations.
From Verif Require Import Base QcX Digraph BbnModel SumOver SmModel SmProofs SmHist SmThms NetModel NetProofs NetFit NetThms NetBridge NetEquiv.
From Verif Require Kruskal InferModel InferSpec InferProofs InferEngine InferOps InferMain InferThms CausalThms MarkovEq.
Import ListNotations.
Local Open Scope list_scope.

(** ** Counting *)
Section Counting.
  Local Open Scope Qc_scope.
  Context (L : string -> list label) (vs : list string) (rows : list (list (string * option label))).
  Context (US : forall r, In r rows -> usable L vs r = true) (NDL : forall v, In v vs -> NoDup (L v)).

  Definition set_to (f : string -> label) (v : string) (s : label) : string -> label := fun u => if String.eqb u v then s else f u.
  Lemma set_same f v s : set_to f v s v = s.
  Proof. unfold set_to. rewrite String.eqb_refl. auto. Qed.
  Lemma set_other f v s u : u <> v -> set_to f v s u = f u.
  Proof. unfold set_to. destruct (String.eqb_spec u v); congruence. Qed.

  Lemma agree_ext f g C : (forall v, In v C -> f v = g v) -> agree rows f C = agree rows g C.
  Proof.
    intros H. unfold agree. f_equal. apply filter_ext. intros r. induction C as [|c C IH]; cbn; auto.
    rewrite (H c (or_introl eq_refl)), IH by (intros; apply H; right; auto). auto.
  Qed.

  Lemma agree_split f v C : In v vs -> ~ In v C ->
    Qsum (fun s => Qc_of_nat (agree rows (set_to f v s) (v :: C))) (L v) = Qc_of_nat (agree rows f C).
  Proof.
    intros Hv Nv. unfold agree. induction rows as [|r l IH].
    - cbn [filter List.length]. rewrite Qc_of_nat_0. apply Qsum_all_zero. auto.
    - cbn [filter].
      transitivity (Qsum (fun s => (if (holds r v s && forallb (fun u => holds r u (f u)) C)%bool then 1 else 0) +
          Qc_of_nat (List.length (filter (fun r => forallb (fun u => holds r u (set_to f v s u)) (v :: C)) l))) (L v)).
      { apply Qsum_ext. intros s _.
        replace (forallb (fun u => holds r u (set_to f v s u)) (v :: C)) with (holds r v s && forallb (fun u => holds r u (f u)) C)%bool.
        2:{ cbn [forallb]. rewrite set_same. f_equal. clear -Nv. induction C as [|c C IH]; cbn; auto.
            rewrite set_other, IH by (intros X; apply Nv; cbn; auto). auto. }
        destruct (holds r v s && forallb _ C)%bool; [|ring]. cbn [List.length].
        set (z := List.length _). change (Qc_of_nat (Datatypes.S z)) with (Qc_of_nat (1 + z)). rewrite Qc_of_nat_add, Qc_of_nat_1. auto. }
      rewrite Qsum_add, IH by (intros; apply US; right; auto).
      assert (U : usable L vs r = true) by (apply US; left; auto). unfold usable in U. rewrite forallb_forall in U.
      specialize (U v Hv). apply existsb_exists in U as (s0 & Hs0 & H0).
      assert (One : forall s, holds r v s = true -> s = s0).
      { intros s H. unfold holds in *. destruct (at_col r v) as [x|]; [|discriminate].
        destruct (label_eqb_spec x s), (label_eqb_spec x s0); congruence. }
      rewrite (Qsum_single _ (L v) s0); auto.
      + rewrite H0. cbn [andb]. destruct (forallb _ C); cbn [List.length]; [|ring].
        set (z := List.length _). change (Qc_of_nat (Datatypes.S z)) with (Qc_of_nat (1 + z)). rewrite Qc_of_nat_add, Qc_of_nat_1. auto.
      + intros s _ Ns. destruct (holds r v s) eqn:Q; [rewrite (One s Q) in Ns; congruence|auto].
  Qed.
End Counting.

Section Moral.
  Import InferSpec InferEngine InferMain CausalThms.
  Local Open Scope Qc_scope.
  Context (S : list (string * list label)) (b : bn) (d : df) (prior : option string) (ess : option Qc).
  Let M := "MaximumLikelihoodEstimator"%string.
  Let N := learned S b d M prior ess.
  Context (NO : net_ok b) (SO : shape_ok N) (CS : columns_sum_1 N).
  Context (US : filter (usable (declared S) (b_nodes b)) (d_rows d) = d_rows d) (NR : d_rows d <> []).

  Definition proper (f : string -> label) : Prop := forall v, In v (b_nodes b) -> In (f v) (declared S v).
  Definition given (f : string -> label) (C : list string) : list (string * label) := map (fun v => (v, f v)) C.

  (** The network gives the states of [C] the probabilities with which they occur in the data. *)
  Definition faithful (C : list string) : Prop :=
    forall f, proper f -> Pr N (observed (given f C)) = Qc_of_nat (agree (d_rows d) f C) / Qc_of_nat (List.length (d_rows d)).

  Lemma N_vars v : In v (vars N) <-> In v (b_nodes b).
  Proof.
    unfold N, learned, vars. rewrite map_map. cbn [fst]. rewrite map_id. split; apply Permutation_in; [|symmetry]; apply ssort_Perm.
  Qed.
  Lemma N_In v : In v (b_nodes b) -> exists c, In (v, c) N /\ states c = declared S v /\ parents c = ssort (get_parents b v) /\
    forall s u, prob c s u = frequency MLE (declared S) (d_rows d) v (ssort (get_parents b v)) s u.
  Proof.
    intros H. apply (Permutation_in _ (Permutation_sym (ssort_Perm _))) in H. eexists. split.
    - unfold N, learned. apply in_map_iff. exists v. split; [reflexivity|auto].
    - cbn [states parents prob]. rewrite US. auto.
  Qed.
  Lemma N_states v : In v (b_nodes b) -> states_of N v = declared S v.
  Proof. intros H. destruct (N_In v H) as (c & I & E & _). rewrite <- E. apply InferProofs.states_of_In; auto. apply SO. Qed.
  Lemma N_nodup v : In v (b_nodes b) -> NoDup (declared S v).
  Proof. intros H. destruct (N_In v H) as (c & I & E & _). rewrite <- E. apply (ok_states N SO v c I). Qed.
  Lemma rows_usable r : In r (d_rows d) -> usable (declared S) (b_nodes b) r = true.
  Proof. rewrite <- US. intros H. apply filter_In in H. tauto. Qed.

  Lemma faithful_perm C C' : Permutation C C' -> faithful C -> faithful C'.
  Proof.
    intros P F f Pf. rewrite <- (agree_perm (d_rows d) f C C' P), <- (F f Pf). apply Pr_ext. intros w _.
    unfold observed, given. clear F. induction P; cbn; try congruence. rewrite !andb_assoc. f_equal. apply andb_comm.
  Qed.

  Lemma given_ext f g C : (forall v, In v C -> f v = g v) -> given f C = given g C.
  Proof. intros H. apply map_ext_in. intros v Hv. rewrite H; auto. Qed.

  Lemma faithful_drop v C : In v (b_nodes b) -> ~ In v C -> faithful (v :: C) -> faithful C.
  Proof.
    intros Hv Nv F f Pf. rewrite <- (Pr_and_sum N SO (given f C) v) by (apply N_vars; auto). rewrite N_states by auto.
    rewrite <- (agree_split (declared S) (b_nodes b) (d_rows d) rows_usable N_nodup f v C Hv Nv).
    unfold Qcdiv. rewrite <- Qsum_mul_r. apply Qsum_ext. intros s Hs.
    assert (Pf' : proper (set_to f v s)).
    { intros u Hu. unfold set_to. destruct (String.eqb_spec u v) as [->|]; auto. }
    specialize (F _ Pf'). unfold Qcdiv in F. rewrite <- F. unfold Pr_and. apply Pr_ext. intros w _. cbn [given map observed forallb fst snd].
    rewrite set_same. rewrite andb_comm. unfold is_. f_equal. change (map (fun v0 => (v0, set_to f v s v0)) C) with (given (set_to f v s) C).
    rewrite (given_ext (set_to f v s) f C); auto. intros u Hu. apply set_other. intros ->. auto.
  Qed.

  Lemma faithful_sub C D : incl D (b_nodes b) -> NoDup D -> NoDup C -> incl C D -> faithful D -> faithful C.
  Proof.
    intros IV ND NC I F.
    assert (P : exists E, Permutation D (E ++ C)).
    { clear F IV. revert D ND I. induction NC as [|c C Nc NC IH]; intros D ND I; [exists D; rewrite app_nil_r; auto|].
      destruct (in_split c D (I c (or_introl eq_refl))) as (D1 & D2 & ->).
      destruct (IH (D1 ++ D2)) as (E & P).
      - eapply NoDup_remove_1; eauto.
      - intros x Hx. assert (Hx' := I x (or_intror Hx)). apply in_app_or in Hx'. apply in_or_app. destruct Hx' as [|[<-|]]; auto. contradiction.
      - exists E. transitivity (c :: D1 ++ D2); [symmetry; apply Permutation_middle|]. rewrite P. apply Permutation_middle. }
    destruct P as (E & P). apply (faithful_perm _ _ P) in F.
    assert (NDE : NoDup (E ++ C)) by (apply (Permutation_NoDup P); auto).
    assert (IE : incl E (b_nodes b)) by (intros x Hx; apply IV, (Permutation_in _ (Permutation_sym P)), in_or_app; auto).
    clear P ND IV I. induction E as [|x E IH]; cbn in *; auto. inversion NDE as [|? ? Nx NDE']; subst. apply IH; auto.
    - apply (faithful_drop x); auto. apply IE; left; auto.
    - intros y Hy. apply IE; right; auto.
  Qed.

  Lemma faithful_nil : faithful [].
  Proof.
    intros f _. unfold given. cbn [map]. rewrite (Pr_ext N (observed []) (fun _ => true)) by auto.
    replace (Pr N (fun _ => true)) with 1.
    - unfold agree. cbn [forallb]. rewrite filter_all by auto. symmetry. apply Qc_inv_r, Qc_of_nat_pos. destruct (d_rows d); [congruence|cbn; lia].
    - symmetry. rewrite (CausalCore.Pr_keep N (fun _ => false) (fun _ => true) (fun _ => LInt 0) SO CS).
      + assert (K : forall l, CausalCore.keep (fun _ => false) l = []) by (intros l; induction l; auto). rewrite K. reflexivity.
      + intros v c I H. discriminate.
      + intros x y H. auto.
  Qed.

  Lemma arrow_edge p v : In (p, v) (parent_arrows N) <-> In (p, v) (b_edges b).
  Proof.
    rewrite <- parents_arrow. rewrite parents_of_In. split.
    - intros (c & I & H). assert (Hv : In v (b_nodes b)) by (apply N_vars, in_map_iff; exists (v, c); auto).
      destruct (N_In v Hv) as (c' & I' & _ & E & _).
      assert (c = c').
      { assert (D : dget String.eqb N v = Some c) by (apply (In_dget _ String.eqb_spec); [apply SO|auto]).
        assert (D' : dget String.eqb N v = Some c') by (apply (In_dget _ String.eqb_spec); [apply SO|auto]). congruence. }
      subst c'. rewrite E in H. apply (Permutation_in _ (ssort_Perm _)), get_parents_In in H. auto.
    - intros H. assert (Hv : In v (b_nodes b)) by (apply (no_touch _ NO); exists p; auto).
      destruct (N_In v Hv) as (c & I & _ & E & _). exists c. split; auto. rewrite E.
      apply (Permutation_in _ (Permutation_sym (ssort_Perm _))), get_parents_In. auto.
  Qed.

  Lemma value_given f C p : In p C -> value_in (given f C) p = f p.
  Proof.
    intros H. unfold value_in. destruct (dget String.eqb (given f C) p) as [x|] eqn:E.
    - apply (dget_In _ String.eqb_spec) in E. apply in_map_iff in E as (u & [= -> ->] & _). auto.
    - exfalso. assert (I : In p (map fst (given f C))) by (unfold given; rewrite map_map, map_id; auto).
      apply (dget_key_Some _ String.eqb_spec) in I. destruct I as (x & I). unfold dget in *. congruence.
  Qed.

  Lemma faithful_family v : In v (b_nodes b) -> faithful (ssort (get_parents b v)) -> faithful (v :: ssort (get_parents b v)).
  Proof.
    intros Hv F f Pf. destruct (N_In v Hv) as (c & I & Es & Ep & Et). set (ps := ssort (get_parents b v)) in *.
    assert (PI : forall p, In p ps -> In (p, v) (parent_arrows N)).
    { intros p Hp. apply arrow_edge. apply (Permutation_in _ (ssort_Perm _)), get_parents_In in Hp. auto. }
    assert (PV : incl ps (b_nodes b)) by (apply parents_nodes; auto).
    assert (NDp : NoDup ps) by (rewrite <- Ep; apply (ok_parents N SO v c I)).
    assert (Fst : map fst (given f ps) = ps) by (unfold given; rewrite map_map, map_id; auto).
    transitivity (Pr_and N (given f ps) v (f v)).
    { unfold Pr_and. apply Pr_ext. intros w _. cbn [given map observed forallb fst snd]. rewrite andb_comm. auto. }
    rewrite (markov_mass N v c (given f ps) SO CS I).
    - rewrite (F f Pf), Et, Ep.
      replace (map (value_in (given f ps)) ps) with (map f ps) by (apply map_ext_in; intros p Hp; rewrite value_given; auto).
      unfold frequency. rewrite occ_agree, occw_agree.
      destruct (Nat.eqb_spec (agree (d_rows d) f ps) 0) as [Z|Z].
      + pose proof (agree_sub (d_rows d) f ps (v :: ps) (fun x H => or_intror H)) as Le. rewrite Z in *.
        replace (agree (d_rows d) f (v :: ps)) with 0%nat by lia. rewrite Qc_of_nat_0. unfold Qcdiv. ring.
      + pose proof (Qc_of_nat_pos (agree (d_rows d) f ps) ltac:(lia)).
        assert (Qc_of_nat (List.length (d_rows d)) <> 0) by (apply Qc_of_nat_pos; destruct (d_rows d); [congruence|cbn; lia]).
        field. auto.
    - split; [rewrite Fst; auto|]. intros u x H. apply in_map_iff in H as (p & [= <- <-] & Hp). split; [apply N_vars; auto|].
      rewrite N_states; auto.
    - rewrite Ep, Fst. apply incl_refl.
    - rewrite Fst. intros x Hx. pose proof (PI x Hx) as A. split.
      + intros ->. apply (ok_dag N SO v). constructor. auto.
      + intros P. apply (ok_dag N SO x). econstructor 2; eauto.
    - rewrite Es. auto.
  Qed.

  (** The parents of [v] and of every node before [v] are pairwise linked. *)
  Definition linked_parents (v : string) : Prop :=
    forall x y, In (x, v) (b_edges b) -> In (y, v) (b_edges b) -> x <> y -> In (x, y) (b_edges b) \/ In (y, x) (b_edges b).
  Definition clean (v : string) : Prop := linked_parents v /\ forall t, path (b_edges b) t v -> linked_parents t.

  Lemma clean_up p v : In (p, v) (b_edges b) -> clean v -> clean p.
  Proof.
    intros H [_ C]. split; [apply C; constructor; auto|]. intros t P. apply C. apply (path_trans _ t p v P). constructor; auto.
  Qed.

  (** A set of pairwise linked nodes lies in the family of its last node. *)
  Lemma clique_family (r : string -> nat) C : (forall x y, In (x, y) (b_edges b) -> (r x < r y)%nat) -> C <> [] ->
    (forall x y, In x C -> In y C -> x <> y -> In (x, y) (b_edges b) \/ In (y, x) (b_edges b)) ->
    exists z, In z C /\ incl C (z :: ssort (get_parents b z)).
  Proof.
    intros Rk NE H. destruct (MarkovEq.pick_max (fun _ => true) r C) as (z & Hz & _ & Mz).
    { destruct C as [|c C]; [congruence|]. exists c. split; [left|]; auto. }
    exists z. split; auto. intros x Hx. destruct (string_dec z x) as [->|Ne]; [left; auto|right].
    apply (Permutation_in _ (Permutation_sym (ssort_Perm _))), get_parents_In.
    destruct (H x z Hx Hz) as [K|K]; auto. specialize (Mz x Hx eq_refl). pose proof (Rk _ _ K). lia.
  Qed.

  Lemma family_nodup v : In v (b_nodes b) -> NoDup (v :: ssort (get_parents b v)).
  Proof.
    intros Hv. destruct (N_In v Hv) as (c & I & Es & Ep & Et). constructor.
    - intros H. apply (Permutation_in _ (ssort_Perm _)), get_parents_In in H. apply (no_dag _ NO v). constructor. auto.
    - rewrite <- Ep. apply (ok_parents N SO v c I).
  Qed.

  Theorem clean_faithful v : In v (b_nodes b) -> clean v -> faithful (v :: ssort (get_parents b v)).
  Proof.
    destruct (proj1 (acyclic_rank String.eqb String.eqb_spec _) (no_dag _ NO)) as (r & Rk).
    remember (r v) as n eqn:En. revert v En. induction n as [n IH] using (well_founded_induction lt_wf). intros v -> Hv Cv.
    apply faithful_family; auto.
    assert (Pe : forall p, In p (ssort (get_parents b v)) <-> In (p, v) (b_edges b)).
    { intros p. rewrite <- get_parents_In. split; apply Permutation_in; [|symmetry]; apply ssort_Perm. }
    destruct (list_eq_dec string_dec (ssort (get_parents b v)) []) as [->|NE]; [apply faithful_nil|].
    destruct (clique_family r (ssort (get_parents b v)) Rk NE) as (z & Hz & I).
    { intros x y Hx Hy Nxy. apply (proj1 Cv); auto; apply Pe; auto. }
    pose proof (proj1 (Pe z) Hz) as Ez.
    assert (Iz : In z (b_nodes b)) by (apply (no_touch _ NO); exists v; auto).
    apply (faithful_sub _ (z :: ssort (get_parents b z))); auto.
    - intros x [<-|Hx]; auto. apply (parents_nodes b z NO x Hx).
    - apply family_nodup; auto.
    - pose proof (family_nodup v Hv) as X. inversion X; auto.
    - apply (IH (r z)); auto. apply (clean_up z v); auto.
  Qed.

  Theorem clique_faithful C : incl C (b_nodes b) -> NoDup C ->
    (forall x y, In x C -> In y C -> x <> y -> In (x, y) (b_edges b) \/ In (y, x) (b_edges b)) ->
    (forall x, In x C -> clean x) -> faithful C.
  Proof.
    intros I ND H Cl. destruct (list_eq_dec string_dec C []) as [->|NE]; [apply faithful_nil|].
    destruct (proj1 (acyclic_rank String.eqb String.eqb_spec _) (no_dag _ NO)) as (r & Rk).
    destruct (clique_family r C Rk NE H) as (z & Hz & J).
    apply (faithful_sub _ (z :: ssort (get_parents b z))); auto.
    - intros x [<-|Hx]; auto. apply (parents_nodes b z NO x Hx).
    - apply family_nodup; auto.
    - apply clean_faithful; auto.
  Qed.
End Moral.

(** ** Through the API *)

(** Any two parents of [t] are linked. *)
Definition parents_linked (g : graph) (t : label) : Prop :=
  forall x y, In (x, t) (edges g) -> In (y, t) (edges g) -> x <> y -> adjacent g x y.

Lemma path_names (es : list (string * string)) (E : list (label * label)) x y :
  (forall x y, In (x, y) es -> In (LStr x, LStr y) E) -> path es x y -> path E (LStr x) (LStr y).
Proof. apply path_labels. Qed.

Theorem frequencies_reproduced g d prior ess : reached g -> named g ->
  acyclic (edges g) -> all_linked g -> edges g <> [] ->
  (forall x, In (LStr x) (nodes g) -> In x (d_cols d) /\ InferModel.is_identifier x = true /\ x <> "self"%string) ->
  complete d ->
  exists e, trained g d "MaximumLikelihoodEstimator" prior ess e /\
    forall sc obs v s, Kruskal.good_sched sc -> NoDup (v :: map fst obs) ->
      (forall u x, In (u, x) ((v, s) :: obs) -> In (LStr u) (nodes g) /\ exists row, In row (d_rows d) /\ at_col row u = Some x) ->
      (forall x y, In x (v :: map fst obs) -> In y (v :: map fst obs) -> x <> y -> adjacent g (LStr x) (LStr y)) ->
      (forall x t, In x (v :: map fst obs) -> t = LStr x \/ path (edges g) t (LStr x) -> parents_linked g t) ->
      occurrences (d_rows d) (map fst obs) (map snd obs) <> 0%nat ->
      exists r, InferModel.engine_query sc e obs = Ok r /\
        InferEngine.answer r v s = Some (Qc_of_nat (occurrences_with (d_rows d) v s (map fst obs) (map snd obs)) /
                                         Qc_of_nat (occurrences (d_rows d) (map fst obs) (map snd obs)))%Qc.
Proof.
  intros R N AC AL NE Names CD.
  assert (SW : sound_way "MaximumLikelihoodEstimator" prior ess) by (left; auto).
  destruct (data_to_net g d _ prior ess R N AC AL NE Names CD SW)
    as (b0 & b1 & b2 & S & fs & e & E0 & E1 & ES & E2 & Ec & Ee & (NO & SO & CS) & HE & HN & HS & HU & HQ).
  exists e. split; [exists b0, b1, b2, fs; auto|]. intros sc obs v s G ND HO Adj Par Occ.
  assert (Seen : forall u x, In (u, x) ((v, s) :: obs) -> In u (b_nodes b2) /\ In x (declared S u)).
  { intros u x H. destruct (HO u x H) as [H1 H2]. split; [apply HN; auto|]. apply HS; auto. apply (Names u H1). }
  inversion ND as [|? ? Nv NDo]; subst.
  destruct (HQ sc obs G NDo) as (r & Eq & _ & Ans); [intros u x H; apply Seen; right; auto|].
  exists r. split; auto. destruct (Seen v s (or_introl eq_refl)) as [Iv Is]. rewrite Ans by auto. f_equal.
  set (Nw := learned S b2 d "MaximumLikelihoodEstimator" prior ess) in *.
  set (C := map fst obs) in *.
  set (f := fun u => match dget String.eqb ((v, s) :: obs) u with Some x => x | None => hd (LInt 0) (declared S u) end).
  assert (Fv : f v = s) by (unfold f; cbn; rewrite String.eqb_refl; auto).
  assert (Fo : forall u x, In (u, x) obs -> f u = x).
  { intros u x H. unfold f. rewrite (In_dget _ String.eqb_spec ((v, s) :: obs) u x); auto. right; auto. }
  assert (Gv : given f C = obs).
  { unfold given, C. rewrite map_map. rewrite <- (map_id obs) at 2. apply map_ext_in. intros [u x] H. cbn. rewrite (Fo u x H). auto. }
  assert (Ms : map f C = map snd obs).
  { unfold C. rewrite map_map. apply map_ext_in. intros [u x] H. cbn. apply Fo; auto. }
  assert (Pf : proper S b2 f).
  { intros u Hu. unfold f. destruct (dget String.eqb ((v, s) :: obs) u) as [x|] eqn:E.
    - apply (dget_In _ String.eqb_spec) in E. apply Seen; auto.
    - pose proof (N_In S b2 d prior ess HU u Hu) as (c & Ic & Ec' & _). destruct (InferSpec.ok_states _ SO u c Ic) as [Z _]. rewrite Ec' in Z.
      destruct (declared S u); [congruence|left; auto]. }
  assert (NR : d_rows d <> []) by apply CD.
  assert (In2 : forall x, In x (v :: C) -> In x (b_nodes b2)).
  { intros x [<-|H]; auto. unfold C in H. apply in_map_iff in H as ([u y] & <- & H). apply (Seen u y). right; auto. }
  assert (AdjB : forall x y, In x (v :: C) -> In y (v :: C) -> x <> y -> In (x, y) (b_edges b2) \/ In (y, x) (b_edges b2)).
  { intros x y Hx Hy Nxy. rewrite !HE. apply (Adj x y Hx Hy Nxy). }
  assert (LP : forall t, parents_linked g (LStr t) -> linked_parents b2 t).
  { intros t P x y Hx Hy Nxy. rewrite !HE. apply P; [apply HE; auto|apply HE; auto|congruence]. }
  assert (Cl : forall x, In x (v :: C) -> clean b2 x).
  { intros x Hx. split; [apply LP, (Par x); auto|]. intros t P. apply LP, (Par x); auto. right. revert P. apply path_names. intros. apply HE; auto. }
  assert (F1 : faithful S b2 d prior ess (v :: C)).
  { apply clique_faithful; auto. }
  assert (F0 : faithful S b2 d prior ess C).
  { apply (faithful_drop S b2 d prior ess SO HU v); auto. }
  specialize (F1 f Pf). specialize (F0 f Pf). fold Nw in F0, F1. rewrite Gv in F0.
  rewrite <- Ms in *. rewrite occ_agree in *. rewrite <- Fv at 2. rewrite occw_agree.
  assert (Nz : Qc_of_nat (List.length (d_rows d)) <> 0%Qc) by (apply Qc_of_nat_pos; destruct (d_rows d); [congruence|cbn; lia]).
  assert (Az : Qc_of_nat (agree (d_rows d) f C) <> 0%Qc) by (apply Qc_of_nat_pos; lia).
  assert (E : InferSpec.Pr_and Nw obs v s = InferSpec.Pr Nw (InferSpec.observed (given f (v :: C)))).
  { unfold InferSpec.Pr_and. apply InferMain.Pr_ext. intros w _. cbn [given map]. change (map (fun v0 => (v0, f v0)) C) with (given f C).
    rewrite Gv, Fv. cbn [InferSpec.observed forallb fst snd]. rewrite andb_comm. auto. }
  unfold InferMain.cond_prob. rewrite E, F0, F1. destruct (Qc_eq_bool_spec (Qc_of_nat (agree (d_rows d) f C) / Qc_of_nat (List.length (d_rows d))) 0) as [Z|_].
  - exfalso. apply Az. rewrite <- (Qcmult_0_l (Qc_of_nat (List.length (d_rows d)))), <- Z. field. auto.
  - field. auto.
Qed.
