(** * NetProofs: lemmas about the BayesianNetwork model: constructor and node states. *)
From Coq Require Import List Bool Arith ZArith Lia String Ascii QArith Qcanon Permutation Sorted Relations.
From Verif Require Import Base QcX Digraph SmModel SmProofs SmHist SmThms NetModel.
Import ListNotations.
Local Open Scope string_scope.
Local Open Scope list_scope.

(** ** Constructor *)

Definition all_linked (g : graph) : Prop :=
  forall x y, In x (nodes g) -> In y (nodes g) -> linked (edges g) x y.

Lemma components_le_1 g : wf g -> ((List.length (components g) <= 1)%nat <-> all_linked g).
Proof.
  intros W. destruct (components_spec g W) as [C1 C2]. split.
  - intros L x y Hx Hy. destruct (C2 x Hx) as (c & Hc & Ix). destruct (C2 y Hy) as (c' & Hc' & Iy).
    assert (E : c' = c).
    { destruct (components g) as [|c0 [|c1 cs]]; simpl in *; [tauto| |lia].
      destruct Hc as [<-|[]], Hc' as [<-|[]]. auto. }
    subst c'. destruct (C1 c Hc) as (z & Hz & ->). apply component_In in Ix, Iy; auto.
    eapply rst_trans; [apply rst_sym; exact Ix|exact Iy].
  - intros A. clear C1 C2. unfold components.
    assert (G : forall ns cs, incl ns (nodes g) -> (List.length cs <= 1)%nat ->
      (forall c, In c cs -> exists x, In x (nodes g) /\ c = component g x) ->
      (List.length (fold_left (fun cs x => if existsb (lmem x) cs then cs else cs ++ [component g x]) ns cs) <= 1)%nat).
    { induction ns as [|x ns IH]; simpl; intros cs I L H; auto.
      assert (I' : incl ns (nodes g)) by (intros z Hz; apply I; right; auto).
      assert (Hx : In x (nodes g)) by (apply I; left; auto).
      destruct (existsb (lmem x) cs) eqn:E; [apply IH; auto|].
      destruct cs as [|c cs].
      - apply IH; auto. intros c [<-|[]]. eauto.
      - exfalso. destruct (H c (or_introl eq_refl)) as (z & Hz & ->). simpl in E.
        apply orb_false_iff in E as [E _]. apply lmem_false in E. apply E. apply component_In; auto. }
    apply G; [apply incl_refl|simpl; lia|intros c []].
Qed.

Lemma reach_sound es n : forall l z, In z (reach n es l) -> exists x, In x l /\ (x = z \/ path es x z).
Proof.
  induction n as [|n IH]; simpl; intros l z H; [eauto|].
  apply IH in H as (y & Hy & P). unfold step_from in Hy. apply in_app_iff in Hy as [Hy|Hy]; [eauto|].
  apply in_map_iff in Hy as ([x y'] & E & Hy). simpl in E. subst y'. apply filter_In in Hy as [Hy M].
  apply smem_In in M. simpl in M. exists x. split; auto. right.
  destruct P as [->|P]; [apply path_one; auto|eapply path_step; eauto].
Qed.

Lemma has_path_sound es u v : has_path es u v = true -> u = v \/ path es u v.
Proof.
  unfold has_path. intros H. apply smem_In in H. apply reach_sound in H as (x & [<-|[]] & P). auto.
Qed.

Lemma add_name_In ns x y : In y (add_name ns x) <-> y = x \/ In y ns.
Proof.
  unfold add_name. destruct (smem x ns) eqn:E.
  - apply smem_In in E. split; auto. intros [->|]; auto.
  - rewrite in_app_iff. simpl. intuition.
Qed.

Lemma NoDup_snoc {A} (l : list A) x : NoDup l -> ~ In x l -> NoDup (l ++ [x]).
Proof. intros N H. apply (Permutation_NoDup (Permutation_cons_append l x)). constructor; auto. Qed.

Lemma add_name_NoDup ns x : NoDup ns -> NoDup (add_name ns x).
Proof. unfold add_name. destruct (smem x ns) eqn:E; auto. intros N. apply NoDup_snoc; auto. apply smem_false; auto. Qed.

Definition touched (es : list (string * string)) (x : string) : Prop := exists y, In (x, y) es \/ In (y, x) es.

Lemma pg_add_edges_ok E : acyclic E -> forall l ns es, incl l E -> incl es E -> NoDup ns -> NoDup es ->
  (forall x, In x ns <-> touched es x) ->
  exists ns' es', foldM pg_add_edge l (ns, es) = Ok (ns', es') /\ NoDup ns' /\ NoDup es' /\
    (forall e, In e es' <-> In e es \/ In e l) /\ (forall x, In x ns' <-> touched es' x).
Proof.
  intros Ac. induction l as [|[u v] l IH]; intros ns es Il Ie Nn Ne T.
  - simpl. exists ns, es. repeat split; auto; try apply T; auto. intros [H|[]]; auto.
  - assert (Huv : In (u, v) E) by (apply Il; left; auto). cbn [foldM pg_add_edge].
    destruct (String.eqb_spec u v) as [->|Nuv]; [exfalso; apply (Ac v); apply path_one; auto|].
    destruct (smem u ns && smem v ns && has_path es v u) eqn:Hp.
    { exfalso. apply andb_true_iff in Hp as [_ Hp]. apply has_path_sound in Hp as [->|P]; [congruence|].
      apply (Ac u). eapply path_step; [exact Huv|]. eapply path_incl; [exact Ie|exact P]. }
    cbn [bind].
    set (es1 := if existsb (fun f => String.eqb (fst f) u && String.eqb (snd f) v) es then es else es ++ [(u, v)]).
    assert (Ex : existsb (fun f => String.eqb (fst f) u && String.eqb (snd f) v) es = true <-> In (u, v) es).
    { rewrite existsb_exists. split.
      - intros ([a b] & H & F). simpl in F. apply andb_true_iff in F as [F1 F2].
        apply String.eqb_eq in F1, F2. subst. auto.
      - intros H. exists (u, v). split; auto. simpl. rewrite !String.eqb_refl. auto. }
    assert (In1 : forall e, In e es1 <-> In e es \/ e = (u, v)).
    { intros e. unfold es1. destruct (existsb _ es) eqn:F.
      - pose proof (proj1 Ex eq_refl). split; auto. intros [H'|H']; subst; auto.
      - rewrite in_app_iff. simpl. intuition. }
    destruct (IH (add_name (add_name ns u) v) es1) as (ns' & es' & A1 & A2 & A3 & A4 & A5).
    + intros e He. apply Il. right; auto.
    + intros e He. apply In1 in He as [He| ->]; auto.
    + apply add_name_NoDup, add_name_NoDup; auto.
    + unfold es1. destruct (existsb _ es) eqn:F; auto. apply NoDup_snoc; auto. intros H. apply Ex in H. congruence.
    + intros x. rewrite !add_name_In, T. unfold touched. split.
      * intros [->|[->|(y & H)]].
        -- exists u. right. apply In1; auto.
        -- exists v. left. apply In1; auto.
        -- exists y. rewrite !In1. tauto.
      * intros (y & H). rewrite !In1 in H. destruct H as [[H|H]|[H|H]].
        -- right; right; exists y; auto.
        -- injection H as -> ->; auto.
        -- right; right; exists y; auto.
        -- injection H as -> ->; auto.
    + exists ns', es'. split; [exact A1|]. split; auto. split; auto. split; auto.
      intros e. rewrite A4, In1. simpl. intuition.
Qed.

Definition named (g : graph) : Prop := exists ns, nodes g = map LStr ns.

Definition name_pair (e : label * label) : string * string := (name_of (fst e), name_of (snd e)).

Lemma named_node g x : named g -> In x (nodes g) -> x = LStr (name_of x).
Proof. intros (ns & E) H. rewrite E in H. apply in_map_iff in H as (s & <- & _). auto. Qed.

Lemma name_pair_In g x y : wf g -> named g -> In (x, y) (map name_pair (edges g)) <-> In (LStr x, LStr y) (edges g).
Proof.
  intros W N. rewrite in_map_iff. split.
  - intros ([a b] & E & H). injection E as <- <-. destruct (edges_nodes g a b W H) as [Ha Hb].
    rewrite <- (named_node g a), <- (named_node g b); auto.
  - intros H. exists (LStr x, LStr y). auto.
Qed.

Lemma name_pair_path g x y : wf g -> named g -> path (map name_pair (edges g)) x y -> path (edges g) (LStr x) (LStr y).
Proof.
  intros W N. induction 1 as [u v H|u v z H P IH].
  - apply path_one. apply name_pair_In; auto.
  - eapply path_step; [apply name_pair_In; eauto|auto].
Qed.

Lemma init_spec g : wf g -> named g ->
  (acyclic (edges g) /\ all_linked g ->
     exists b, bn_init g = Ok b /\ b_states b = None /\ b_cpds b = [] /\ NoDup (b_nodes b) /\ NoDup (b_edges b) /\
       (forall x y, In (x, y) (b_edges b) <-> In (LStr x, LStr y) (edges g)) /\
       (forall x, In x (b_nodes b) <-> touched (b_edges b) x)) /\
  (~ (acyclic (edges g) /\ all_linked g) -> bn_init g = Err ValueError).
Proof.
  intros W N. unfold bn_init.
  pose proof (components_le_1 g W) as C.
  destruct (Nat.ltb_spec 1 (List.length (components g))) as [L|L].
  - split; auto. intros [_ A]. apply C in A. lia.
  - apply C in L. destruct (is_dag label_eqb (edges g)) eqn:D; simpl.
    + apply (is_dag_acyclic _ label_eqb_spec) in D. split; [|tauto]. intros _.
      change (map (fun e => (name_of (fst e), name_of (snd e))) (edges g)) with (map name_pair (edges g)).
      assert (Ac : acyclic (map name_pair (edges g))).
      { intros x P. apply name_pair_path in P; auto. apply (D _ P). }
      destruct (pg_add_edges_ok _ Ac (map name_pair (edges g)) [] []) as (ns & es & A1 & A2 & A3 & A4 & A5).
      * apply incl_refl.
      * intros e [].
      * constructor.
      * constructor.
      * intros x. split; [intros []|]. intros (y & [[]|[]]).
      * exists (mkBn ns es None []). rewrite A1. simpl. repeat split; auto.
        -- intros H. apply A4 in H as [[]|H]. apply name_pair_In; auto.
        -- intros H. apply A4. right. apply name_pair_In; auto.
        -- apply A5.
        -- apply A5.
    + split; auto. intros [A _]. apply (is_dag_acyclic _ label_eqb_spec) in A. congruence.
Qed.

Lemma linked_touch g x y : wf g -> linked (edges g) x y -> x <> y ->
  (exists z, In (x, z) (edges g) \/ In (z, x) (edges g)) /\ (exists z, In (y, z) (edges g) \/ In (z, y) (edges g)).
Proof.
  intros W. induction 1 as [a c H|a|a c H IH|a c d H1 IH1 H2 IH2]; intros N.
  - split; eauto.
  - congruence.
  - destruct IH as [A B]; auto.
  - destruct (label_eqb_spec a c) as [->|Na]; [apply IH2; auto|].
    destruct (label_eqb_spec c d) as [->|Nc]; [apply IH1; auto|].
    split; [apply IH1; auto|apply IH2; auto].
Qed.

Lemma init_nodes g b : wf g -> named g -> bn_init g = Ok b -> edges g <> [] ->
  forall x, In x (b_nodes b) <-> In (LStr x) (nodes g).
Proof.
  intros W N E Ne. destruct (init_spec g W N) as [A B].
  destruct (is_dag label_eqb (edges g)) eqn:D.
  2:{ rewrite B in E; [discriminate|]. intros [F _]. apply (is_dag_acyclic _ label_eqb_spec) in F. congruence. }
  apply (is_dag_acyclic _ label_eqb_spec) in D.
  destruct (le_gt_dec (List.length (components g)) 1) as [L|L].
  2:{ rewrite B in E; [discriminate|]. intros [_ F]. apply components_le_1 in F; auto. lia. }
  apply components_le_1 in L; auto. destruct (A (conj D L)) as (b' & E' & _ & _ & _ & _ & Ed & Nd).
  assert (b' = b) by congruence. subst b'. intros x. rewrite Nd. unfold touched. split.
  - intros (y & [H|H]); apply Ed in H; apply edges_nodes in H; tauto.
  - intros H. destruct (edges g) as [|[u v] l] eqn:El; [congruence|]. rewrite <- El in *.
    assert (Huv : In (u, v) (edges g)) by (rewrite El; left; auto). destruct (edges_nodes g u v W Huv) as [Hu Hv].
    assert (T : exists z, In (LStr x, z) (edges g) \/ In (z, LStr x) (edges g)).
    { destruct (label_eqb_spec (LStr x) u) as [->|Nx]; [eauto|].
      apply (linked_touch g (LStr x) u); auto. }
    destruct T as (z & T). exists (name_of z). rewrite !Ed.
    destruct T as [T|T]; destruct (edges_nodes g _ _ W T) as [T1 T2];
      [rewrite <- (named_node g z N T2)|rewrite <- (named_node g z N T1)]; auto.
Qed.

(** ** Node states *)

Definition one_kind (l : list label) : Prop :=
  (forall x, In x l -> exists z, x = LInt z) \/ (forall x, In x l -> exists s, x = LStr s).

Lemma one_kind_b l : forallb is_int l || forallb (fun x => negb (is_int x)) l = true <-> one_kind l.
Proof.
  unfold one_kind. rewrite orb_true_iff, !forallb_forall. split.
  - intros [H|H]; [left|right]; intros x Hx; specialize (H x Hx); destruct x; simpl in H; try discriminate; eauto.
  - intros [H|H]; [left|right]; intros x Hx; destruct (H x Hx) as (y & ->); auto.
Qed.

Definition lsort : list label -> list label := isort label_leb.

Lemma lsort_sorted l : StronglySorted (fun x y => label_leb x y = true) (lsort l).
Proof. apply isort_sorted; [apply label_leb_total|apply label_leb_trans]. Qed.

Lemma lsort_perm l1 l2 : Permutation l1 l2 -> lsort l1 = lsort l2.
Proof. apply isort_perm_eq; [apply label_leb_total|apply label_leb_trans|apply label_leb_antisym]. Qed.

Lemma lsort_idem l : lsort (lsort l) = lsort l.
Proof. apply isort_idem; [apply label_leb_total|apply label_leb_trans|apply label_leb_antisym]. Qed.

Lemma sorted_labels_ok l : one_kind l -> sorted_labels l = Ok (lsort l).
Proof. intros H. unfold sorted_labels. rewrite (proj2 (one_kind_b l) H). auto. Qed.

Lemma sorted_labels_err l : ~ one_kind l -> sorted_labels l = Err TypeError.
Proof. intros H. unfold sorted_labels. destruct (_ || _) eqn:E; auto. apply one_kind_b in E. contradiction. Qed.

Lemma one_kind_dec l : one_kind l \/ ~ one_kind l.
Proof.
  destruct (forallb is_int l || forallb (fun x => negb (is_int x)) l) eqn:E.
  - left. apply one_kind_b; auto.
  - right. intros H. apply one_kind_b in H. congruence.
Qed.

Lemma number_keys l : map fst (number l) = l.
Proof. unfold number. generalize 0%nat. induction l; simpl; intros; auto. f_equal; auto. Qed.

Lemma number_length l : List.length (number l) = List.length l.
Proof. rewrite <- (number_keys l) at 2. rewrite map_length. auto. Qed.

Lemma combine_seq_get l : NoDup l -> forall k i x, nth_error l i = Some x ->
  dget label_eqb (combine l (seq k (List.length l))) x = Some (k + i)%nat.
Proof.
  induction l as [|y l IH]; intros N k i x H; [destruct i; discriminate|]. inversion N; subst. simpl.
  destruct i as [|i]; simpl in H.
  - injection H as ->. rewrite (eqb_refl' _ label_eqb_spec). f_equal. lia.
  - destruct (label_eqb_spec x y) as [->|]; [exfalso; apply H2; eapply nth_error_In; eauto|].
    rewrite (IH H3 (S k) i x H). f_equal. lia.
Qed.

Lemma number_get l i x : NoDup l -> nth_error l i = Some x -> dget label_eqb (number l) x = Some i.
Proof. intros N H. unfold number. rewrite (combine_seq_get l N 0 i x H). auto. Qed.

Lemma number_iff l i x : NoDup l -> (dget label_eqb (number l) x = Some i <-> nth_error l i = Some x).
Proof.
  intros N. split; [|apply number_get; auto]. intros H.
  assert (I : In x l) by (rewrite <- (number_keys l); apply (dget_Some_key _ label_eqb_spec _ _ _ H)).
  apply In_nth_error in I as (j & J). pose proof (number_get l j x N J). congruence.
Qed.

(** The stored states of a node: numbered in sorted order. *)
Definition stored_ok (s : list (label * nat)) : Prop :=
  exists l, s = number l /\ NoDup l /\ one_kind l /\ lsort l = l.

Definition states_ok (st : list (string * list (label * nat))) : Prop :=
  NoDup (dkeys st) /\ forall v s, In (v, s) st -> stored_ok s.

Definition dict_arg (arg : list (string * list (option label))) : Prop :=
  NoDup (dkeys arg) /\ forall v s, In (v, s) arg -> NoDup s.

Lemma drop_none_In {A} (l : list (option A)) x : In x (drop_none l) <-> In (Some x) l.
Proof.
  induction l as [|[y|] l IH]; simpl.
  - tauto.
  - rewrite IH. split; intros [H|H]; subst; auto. injection H as ->; auto.
  - rewrite IH. split; auto. intros [H|H]; [discriminate|auto].
Qed.

Lemma drop_none_NoDup {A} (l : list (option A)) : NoDup l -> NoDup (drop_none l).
Proof.
  induction l as [|[y|] l IH]; simpl; intros N; [constructor|inversion N; subst|inversion N; subst; auto].
  constructor; [intros H; apply (drop_none_In l y) in H; auto|auto].
Qed.

Definition null (s : option label) : bool := match s with None => true | Some _ => false end.

(** The outcome of an assignment, in terms of its argument. *)
Lemma set_states_spec b arg : dict_arg arg ->
  (exists v, In v (b_nodes b) /\ ~ In v (dkeys arg)) /\ set_node_states b arg = (b, Err KeyError) \/
  incl (b_nodes b) (dkeys arg) /\ (exists v s, In (v, s) arg /\ In None s) /\ set_node_states b arg = (b, Err ValueError) \/
  incl (b_nodes b) (dkeys arg) /\ (forall v s, In (v, s) arg -> ~ In None s) /\
    (exists v s, In (v, s) arg /\ ~ one_kind (drop_none s)) /\ set_node_states b arg = (b, Err TypeError) \/
  incl (b_nodes b) (dkeys arg) /\ (forall v s, In (v, s) arg -> ~ In None s /\ one_kind (drop_none s)) /\
    set_node_states b arg =
      (mkBn (b_nodes b) (b_edges b) (Some (map (fun ns => (fst ns, number (lsort (drop_none (snd ns))))) arg)) (b_cpds b), Ok tt).
Proof.
  intros [N1 N2]. unfold set_node_states.
  destruct (forallb (fun v => smem v (dkeys arg)) (b_nodes b)) eqn:F; simpl.
  - assert (I : incl (b_nodes b) (dkeys arg)).
    { intros v Hv. rewrite forallb_forall in F. apply smem_In, F; auto. }
    right. destruct (existsb _ arg) eqn:X.
    + left. split; auto. split; auto. apply existsb_exists in X as ([v s] & Hv & X). apply existsb_exists in X as (x & Hx & X).
      exists v, s. split; auto. simpl in Hx. destruct x; [discriminate|auto].
    + right. assert (NN : forall v s, In (v, s) arg -> ~ In None s).
      { intros v s Hv Hn. assert (E : existsb (fun ns : string * list (option label) => existsb null (snd ns)) arg = true).
        { apply existsb_exists. exists (v, s). split; auto. apply existsb_exists. exists None. auto. }
        unfold null in E. rewrite E in X. discriminate. }
      assert (K : (exists v s, In (v, s) arg /\ ~ one_kind (drop_none s)) \/
                  (forall v s, In (v, s) arg -> one_kind (drop_none s))).
      { clear. induction arg as [|[v s] arg IH]; [right; intros v s []|].
        destruct (one_kind_dec (drop_none s)) as [K|K]; [|left; exists v, s; simpl; auto].
        destruct IH as [(v' & s' & H & IH)|IH]; [left; exists v', s'; simpl; auto|].
        right. intros v' s' [E|H]; [injection E as <- <-; auto|eauto]. }
      destruct K as [K|K].
      * left. split; auto. split; auto. split; auto. rewrite (mapM_err _ TypeError); auto.
        -- intros [v s] _. destruct (one_kind_dec (drop_none s)) as [O|O].
           ++ rewrite sorted_labels_ok by auto. simpl. eauto.
           ++ rewrite sorted_labels_err by auto. auto.
        -- destruct K as (v & s & H & O). exists (v, s). split; auto. simpl. rewrite sorted_labels_err by auto. auto.
      * right. split; auto. split.
        { intros v s H. split; eauto. }
        rewrite (mapM_ok_intro _ _ (fun ns => (fst ns, number (lsort (drop_none (snd ns)))))); auto.
        intros [v s] H. simpl. rewrite sorted_labels_ok; eauto.
  - left. split; auto.
    assert (E : exists v, In v (b_nodes b) /\ smem v (dkeys arg) = false).
    { clear - F. induction (b_nodes b) as [|v l IH]; simpl in *; [discriminate|].
      apply andb_false_iff in F as [F|F]; [exists v; auto|]. destruct (IH F) as (x & A & B). eauto. }
    destruct E as (v & A & B). exists v. split; auto. apply smem_false; auto.
Qed.

Lemma one_kind_sub l l' : incl l' l -> one_kind l -> one_kind l'.
Proof. intros I [H|H]; [left|right]; intros x Hx; apply H, I, Hx. Qed.

Lemma stored_number l : NoDup l -> one_kind l -> stored_ok (number (lsort l)).
Proof.
  intros N K. exists (lsort l). split; auto. split; [apply isort_NoDup; auto|]. split.
  - eapply one_kind_sub; [|exact K]. intros x Hx. unfold lsort in Hx. apply isort_In in Hx. auto.
  - apply lsort_idem.
Qed.

Lemma map_states_ok arg : dict_arg arg -> (forall v s, In (v, s) arg -> one_kind (drop_none s)) ->
  states_ok (map (fun ns => (fst ns, number (lsort (drop_none (snd ns))))) arg).
Proof.
  intros [N1 N2] K. split.
  - unfold dkeys. rewrite map_map. auto.
  - intros v s H. apply in_map_iff in H as ([v' s'] & E & H). simpl in E. injection E as -> <-.
    apply stored_number; eauto. apply drop_none_NoDup; eauto.
Qed.

(** ** Unique values of a column *)
Lemma unique_spec {A} (eqb : A -> A -> bool) (S : forall x y, reflect (x = y) (eqb x y)) l :
  NoDup (unique eqb l) /\ forall x, In x (unique eqb l) <-> In x l.
Proof.
  unfold unique.
  assert (G : forall acc, NoDup acc -> let r := fold_left (fun acc x => if memb eqb x acc then acc else acc ++ [x]) l acc in
     NoDup r /\ forall x, In x r <-> In x acc \/ In x l).
  { induction l as [|y l IH]; simpl; intros acc N; [split; auto; tauto|].
    destruct (memb eqb y acc) eqn:E.
    - apply (memb_In _ S) in E. destruct (IH acc N) as [A1 A2]. split; auto. intros x. rewrite A2. split; [tauto|].
      intros [H|[<-|H]]; auto.
    - apply (memb_false _ S) in E. destruct (IH (acc ++ [y])) as [A1 A2]; [apply NoDup_snoc; auto|]. split; auto.
      intros x. rewrite A2, in_app_iff. simpl. tauto. }
  destruct (G [] (NoDup_nil _)) as [G1 G2]. split; auto. intros x. rewrite G2. simpl. tauto.
Qed.

Lemma olabel_eqb_spec x y : reflect (x = y) (olabel_eqb x y).
Proof. destruct x, y; simpl; try (constructor; congruence). destruct (label_eqb_spec l l0); constructor; congruence. Qed.
