(** * CondProofs: networks built from conditional tables answer with the probabilities they describe. *)
From Coq Require Import List Bool Arith ZArith Lia String QArith Qcanon Permutation Relations.
From Verif Require Import Base QcX Digraph BbnModel SumOver Forest Elim Triang Kruskal RTree Sched Calib BbnTables BbnProofs BbnQuery BbnBuild InferModel InferSpec InferProofs InferEngine InferMain BuiltGen CondModel CondSpec.
Import ListNotations.
Local Open Scope Qc_scope.
Local Open Scope list_scope.

(** ** Keys *)
Lemma insert_names (x : var * value) l :
  map fst (insert_s (fun a b => sleb (fst a) (fst b)) x l) = insert_s sleb (fst x) (map fst l).
Proof.
  induction l as [|y l IH]; auto. cbn [insert_s map]. destruct (sleb (fst x) (fst y)); cbn [map]; auto. f_equal. auto.
Qed.

Lemma key_names g : map fst (cond_key g) = ssort (map fst g).
Proof.
  unfold cond_key, ssort. induction g as [|x g IH]; auto. cbn [isort map]. rewrite insert_names. f_equal. auto.
Qed.

Lemma ssort_perm l l' : Permutation l l' -> ssort l = ssort l'.
Proof. apply isort_perm_eq; [apply sleb_total|apply sleb_trans|apply sleb_antisym]. Qed.

Lemma map_pairs (a : assign) l : (forall p x, In (p, x) l -> x = a p) -> l = map (fun p => (p, a p)) (map fst l).
Proof.
  induction l as [|[p x] l IH]; intros H; auto. cbn [map fst]. f_equal.
  - f_equal. apply H. left; auto.
  - apply IH. intros q y Hq. apply H. right; auto.
Qed.

Lemma at_In g p x : NoDup (map fst g) -> In (p, x) g -> at_ g p = x.
Proof.
  intros ND H. rewrite at_dget. pose proof (In_dget _ String.eqb_spec g p x ND H) as E.
  exact (f_equal (fun o => match o with Some y => y | None => LInt 0 end) E).
Qed.

Lemma is_for_map rows (a : assign) r : is_for rows (map a (named rows)) r = true <-> forall p, In p (named rows) -> at_ (fst r) p = a p.
Proof.
  unfold is_for, observed. rewrite forallb_forall. split.
  - intros H p Hp. assert (Hin : In (p, a p) (combine (named rows) (map a (named rows)))).
    { clear -Hp. induction (named rows) as [|q l IH]; [destruct Hp|]. cbn [map combine].
      destruct Hp as [->|Hp]; [left; auto|right; auto]. }
    specialize (H _ Hin). cbn [fst snd] in H. destruct (label_eqb_spec (at_ (fst r) p) (a p)); auto. discriminate.
  - intros H [p x] Hin. cbn [fst snd]. assert (Hp : In p (named rows) /\ x = a p).
    { clear -Hin. induction (named rows) as [|q l IH]; [destruct Hin|]. cbn [map combine] in Hin.
      destruct Hin as [[= <- <-]|Hin]; [split; [left; auto|auto]|]. destruct (IH Hin). split; auto. right; auto. }
    destruct Hp as [Hp ->]. rewrite H by auto. destruct (label_eqb_spec (a p) (a p)); auto.
Qed.

(** A row for these values has these values as its key. *)
Lemma for_key rows (a : assign) r : NoDup (named rows) -> Permutation (map fst (fst r)) (named rows) ->
  (is_for rows (map a (named rows)) r = true <-> cond_key (fst r) = map (fun p => (p, a p)) (ssort (named rows))).
Proof.
  intros ND P. assert (NDr : NoDup (map fst (fst r))) by (eapply Permutation_NoDup; [symmetry; exact P|auto]).
  assert (K : map fst (cond_key (fst r)) = ssort (named rows)) by (rewrite key_names; apply ssort_perm; auto).
  rewrite is_for_map. split.
  - intros H. rewrite <- K. apply map_pairs. intros p x Hp. apply isort_In in Hp.
    rewrite <- (at_In (fst r) p x); auto. apply H.
    eapply Permutation_in; [exact P|]. apply in_map_iff. exists (p, x); auto.
  - intros E p Hp. apply at_In; auto. apply (isort_In (fun a b : var * value => sleb (fst a) (fst b))).
    change (In (p, a p) (cond_key (fst r))). rewrite E. apply in_map_iff. exists p. split; auto.
    apply isort_In. auto.
Qed.

(** A dictionary with only one value for a key. *)
Lemma dict_of_only {V} (items : list (key * V)) k p : In (k, p) items -> (forall p', In (k, p') items -> p' = p) ->
  dget key_eqb (dict_of key_eqb items) k = Some p.
Proof.
  intros H U. pose proof (dget_dupdate _ key_eqb_spec (V := V) [] items k) as E. unfold dupdate in E. unfold dict_of.
  rewrite E. destruct (dget key_eqb (rev items) k) as [q|] eqn:D.
  - apply (dget_In _ key_eqb_spec) in D. apply in_rev in D. rewrite (U q D). auto.
  - apply (dget_None _ key_eqb_spec) in D. exfalso. apply D. unfold dkeys. rewrite map_rev. apply -> in_rev.
    apply in_map_iff. exists (k, p); auto.
Qed.

Lemma items_In v rows k p : In (k, p) (cond_items v rows) <->
  exists r s, In r rows /\ In (s, p) (snd r) /\ k = cond_key (fst r) ++ [(v, s)].
Proof.
  unfold cond_items. rewrite in_flat_map. split.
  - intros (r & Hr & H). apply in_map_iff in H as ([s q] & [= <- <-] & H). exists r, s. auto.
  - intros (r & s & Hr & Hs & ->). exists r. split; auto. apply in_map_iff. exists (s, p). auto.
Qed.

Lemma set_of_In l x : In x (set_of l) <-> In x l.
Proof.
  induction l as [|y l IH]; cbn [set_of]; [tauto|]. destruct (lmem y l) eqn:M; cbn [In]; rewrite IH; [|tauto].
  apply lmem_In in M. split; [auto|]. intros [->|H]; auto.
Qed.

Lemma set_of_NoDup l : NoDup (set_of l).
Proof.
  induction l as [|y l IH]; cbn [set_of]; [constructor|]. destruct (lmem y l) eqn:M; auto.
  constructor; auto. rewrite set_of_In. intros H. apply lmem_In in H. congruence.
Qed.

(** ** The order of the states does not matter *)
Definition reordered (N N' : net) : Prop :=
  Forall2 (fun x y => fst x = fst y /\ Permutation (states (snd x)) (states (snd y)) /\
                      parents (snd x) = parents (snd y) /\ prob (snd x) = prob (snd y)) N N'.

Lemma flat_map_perm {A B} (f g : A -> list B) l l' : Permutation l l' -> (forall x, Permutation (f x) (g x)) ->
  Permutation (flat_map f l) (flat_map g l').
Proof.
  intros P H. transitivity (flat_map f l').
  - clear H. induction P as [|x l l' P IH|x y l|l1 l2 l3 P1 IH1 P2 IH2]; cbn [flat_map]; auto.
    + apply Permutation_app; auto.
    + rewrite !app_assoc. apply Permutation_app_tail, Permutation_app_comm.
    + etransitivity; eauto.
  - clear P. induction l' as [|x l' IH]; cbn [flat_map]; auto. apply Permutation_app; auto.
Qed.

Section Reordered.
  Variables N N' : net.
  Hypothesis RO : reordered N N'.

  Lemma ro_vars : vars N = vars N'.
  Proof. unfold vars. induction RO as [|x y l l' (E & _) H IH]; auto. cbn [map]. f_equal; auto. Qed.

  Lemma ro_worlds : Permutation (all_worlds N) (all_worlds N').
  Proof.
    induction RO as [|[v c] [u d] l l' (E & P & _) H IH]; auto. cbn [fst snd] in *. subst u. cbn [all_worlds].
    apply flat_map_perm; auto. intros s. apply Permutation_map. auto.
  Qed.

  Lemma ro_joint w : joint N w = joint N' w.
  Proof.
    unfold joint. induction RO as [|[v c] [u d] l l' (E & P & Ep & Eq) H IH]; auto. cbn [fst snd] in *. subst u.
    specialize (IH H). unfold Qprod in *. cbn [fold_right map fst snd]. rewrite Ep, Eq. f_equal. exact IH.
  Qed.

  Lemma ro_Pr P : Pr N P = Pr N' P.
  Proof.
    unfold Pr. rewrite !Qsum_filter. rewrite (Qsum_perm _ _ _ ro_worlds). apply Qsum_ext. intros w _.
    rewrite ro_joint. auto.
  Qed.

  Lemma ro_states v : Permutation (states_of N v) (states_of N' v).
  Proof.
    unfold states_of. induction RO as [|[u c] [u' d] l l' (E & P & _) H IH]; auto. cbn [fst snd] in *. subst u'.
    cbn [find fst]. destruct (String.eqb u v); auto.
  Qed.

  Lemma ro_arrows : parent_arrows N = parent_arrows N'.
  Proof.
    unfold parent_arrows. induction RO as [|[u c] [u' d] l l' (E & P & Ep & _) H IH]; auto. cbn [fst snd] in *. subst u'.
    cbn [flat_map fst snd]. rewrite Ep, IH; auto.
  Qed.

  Lemma ro_In v d : In (v, d) N' -> exists c, In (v, c) N /\ Permutation (states c) (states d) /\ parents c = parents d /\ prob c = prob d.
  Proof.
    induction RO as [|[u c] [u' e] l l' (E & P & Ep & Eq) H IH]; intros Hin; [destruct Hin|]. cbn [fst snd] in *. subst u'.
    destruct Hin as [[= <- <-]|Hin].
    - exists c. split; [left; auto|auto].
    - destruct (IH H Hin) as (c' & A & B). exists c'. split; [right; auto|auto].
  Qed.

  Lemma ro_values ps xs : Forall2 (fun p x => In x (states_of N' p)) ps xs -> Forall2 (fun p x => In x (states_of N p)) ps xs.
  Proof.
    induction 1; constructor; auto. eapply Permutation_in; [symmetry; apply ro_states|]. auto.
  Qed.

  Lemma ro_shape : shape_ok N -> shape_ok N'.
  Proof.
    intros [A B C D E F]. constructor.
    - rewrite <- ro_vars. auto.
    - intros Hn. apply B. rewrite Hn in RO. inversion RO. auto.
    - intros v d H. apply ro_In in H as (c & Hc & P & _). destruct (C v c Hc) as [S1 S2]. split.
      + intros Hn. apply S1. apply Permutation_nil. rewrite <- Hn. symmetry. auto.
      + eapply Permutation_NoDup; eauto.
    - intros v d H. apply ro_In in H as (c & Hc & _ & Ep & _). rewrite <- Ep, <- ro_vars. apply (D v c Hc).
    - rewrite <- ro_arrows. auto.
    - intros v d s ps H Hs Hp. apply ro_In in H as (c & Hc & P & Ep & Eq). rewrite <- Eq. apply (F v c); auto.
      + eapply Permutation_in; [symmetry; exact P|]. auto.
      + rewrite Ep. apply ro_values. auto.
  Qed.

  Lemma ro_joined : joined N -> joined N'.
  Proof. unfold joined. rewrite ro_vars, ro_arrows. auto. Qed.

  Lemma ro_columns : columns_sum_1 N -> columns_sum_1 N'.
  Proof.
    intros C v d ps H Hp. apply ro_In in H as (c & Hc & P & Ep & Eq). rewrite <- Eq, <- (Qsum_perm _ _ _ P).
    apply (C v c); auto. rewrite Ep. apply ro_values. auto.
  Qed.

  Lemma ro_cond obs v s : cond_prob N' obs v s = cond_prob N obs v s.
  Proof. unfold cond_prob, Pr_and. rewrite !ro_Pr. auto. Qed.

  Lemma ro_expected obs v s : expected N' obs v s = expected N obs v s.
  Proof. unfold expected, Pr_and. rewrite !ro_Pr. auto. Qed.
End Reordered.

(** ** An answer needs every entry of every factor *)
Lemma all_keys_has b (a : assign) vs : (forall v, In (a v) (domain_of b v)) -> In (map (fun v => (v, a v)) vs) (all_keys b vs).
Proof.
  intros V. unfold all_keys. induction vs as [|v vs IH]; [left; auto|]. cbn [map cart].
  apply in_flat_map. exists (v, a v). split; [apply in_map; auto|]. apply in_map. exact IH.
Qed.

Lemma assign_clusters_all jt : forall ns acc asg, foldM (assign_one jt) ns acc = Ok asg ->
  (forall c n, In n (asg_get acc c) -> In n (asg_get asg c)) /\
  (forall n, In n ns -> exists c, In n (asg_get asg c) /\ incl (fargs (nfac n)) (nth c (jcliques jt) [])).
Proof.
  induction ns as [|x ns IH]; intros acc asg E; cbn [foldM] in E.
  - injection E as ->. split; [auto|]. intros n [].
  - apply bind_ok in E as (acc' & E1 & E2). destruct (IH _ _ E2) as [A B]. unfold assign_one in E1.
    destruct (filter _ (jorder jt)) as [|c cs] eqn:Ef; [discriminate|]. fold (asg_get acc c) in E1. injection E1 as <-.
    assert (Hc : In c (c :: cs)) by (left; auto). rewrite <- Ef in Hc. apply filter_In in Hc as [_ Hc].
    apply subset_of_true in Hc. split.
    + intros d n Hn. apply A. unfold asg_get in *. rewrite (dget_dset _ Nat.eqb_spec).
      destruct (Nat.eqb_spec d c) as [->|]; auto. apply in_or_app. auto.
    + intros n [<-|Hn]; [|auto]. exists c. split; auto. apply A. unfold asg_get at 1.
      rewrite (dget_dset _ Nat.eqb_spec), Nat.eqb_refl. apply in_or_app. right; left; auto.
Qed.

Lemma foldM_each {A S} (f : S -> A -> res S) (P : A -> Prop) l : (forall s x s', f s x = Ok s' -> P x) ->
  forall s s', foldM f l s = Ok s' -> forall x, In x l -> P x.
Proof.
  intros H. induction l as [|y l IH]; intros s s' E x Hx; [destruct Hx|]. cbn [foldM] in E.
  apply bind_ok in E as (s1 & E1 & E2). destruct Hx as [<-|Hx]; eauto.
Qed.

Lemma call_args (a : assign) vs (args : list var) : incl args vs ->
  mapM (fun u => match dget String.eqb (map (fun v => (v, a v)) vs) u with Some x => Ok x | None => Err KeyError end) args = Ok (map a args).
Proof.
  intros I. apply mapM_ok_intro. intros u Hu. apply I in Hu. clear -Hu.
  induction vs as [|v vs IH]; [destruct Hu|]. cbn [map dget]. destruct (String.eqb_spec u v) as [->|Ne]; auto.
  apply IH. destruct Hu; [congruence|auto].
Qed.

Lemma query_evaluates sc b ev m : bbn_query sc b ev = Ok m ->
  forall n (a : assign), In n (bnodes b) -> (forall v, In (a v) (domain_of b v)) ->
  exists q, ffun (nfac n) (map a (fargs (nfac n))) = Ok q.
Proof.
  intros E n a Hn Va. unfold bbn_query in E. apply bind_ok in E as (_ & _ & E).
  apply bind_ok in E as (jt & _ & E). apply bind_ok in E as (asg & Ea & E). apply bind_ok in E as (s0 & Es & _).
  destruct (assign_clusters_all jt _ _ _ Ea) as [_ B]. destruct (B n Hn) as (c & Hc & I).
  unfold asg_get in Hc. destruct (dget Nat.eqb asg c) as [xs|] eqn:G; [|destruct Hc].
  apply (dget_In _ Nat.eqb_spec) in G. unfold initialize_potentials in Es. apply bind_ok in Es as (c1 & Ec & _).
  assert (T : exists t, clique_table b (clique_vars jt c) xs = Ok t).
  { apply (foldM_each _ (fun an => exists t, clique_table b (clique_vars jt (fst an)) (snd an) = Ok t) asg) with (x := (c, xs)) in Ec; auto.
    intros s x s' X. apply bind_ok in X as (t & X & _). eauto. }
  destruct T as (t & T). unfold clique_table in T.
  assert (X : exists p, entry_product (map (fun v => (v, a v)) (clique_vars jt c)) xs = Ok p).
  { apply mapM_ok in T. pose proof (all_keys_has b a (clique_vars jt c) Va) as K. clear -T K.
    induction T as [|k y ks ys H T IH]; [destruct K|]. destruct K as [->|K]; auto.
    apply bind_ok in H as (p & H & _). eauto. }
  destruct X as (p & X). unfold entry_product in X.
  apply (foldM_each _ (fun n => exists q, call_factor (map (fun v => (v, a v)) (clique_vars jt c)) (nfac n) = Ok q) xs) with (x := n) in X; auto.
  - destruct X as (q & X). unfold call_factor in X. rewrite (call_args a) in X.
    + exists q. exact X.
    + intros u Hu. apply variable_names_In. apply I. auto.
  - intros s y s' Y. apply bind_ok in Y as (q & Y & _). eauto.
Qed.

(** ** The network built *)
Section Built.
  Variable order : var -> list value -> list value.
  Hypothesis OP : forall v l, Permutation (order v l) l.
  Variable conds : list (string * list CondSpec.row).
  Let N := described conds.
  Hypothesis FT : alike conds.
  Hypothesis SO : shape_ok N.

  Definition rows_of (v : string) : list CondSpec.row := match dget String.eqb conds v with Some rows => rows | None => [] end.

  (** The same network, with the states in the order of the sets. *)
  Definition as_built : net :=
    map (fun vr => (fst vr, mkCpd (order (fst vr) (cond_values (snd vr))) (named (snd vr)) (stated (snd vr)))) conds.

  Lemma conds_NoDup : NoDup (map fst conds).
  Proof. pose proof (ok_vars N SO) as H. unfold N, vars, described in H. rewrite map_map in H. exact H. Qed.

  Lemma described_In v rows : In (v, rows) conds -> In (v, mkCpd (listed rows) (named rows) (stated rows)) N.
  Proof. intros H. unfold N, described. apply in_map_iff. exists (v, rows). auto. Qed.

  Lemma rows_of_In v rows : In (v, rows) conds -> rows_of v = rows.
  Proof.
    intros H. unfold rows_of. pose proof (In_dget _ String.eqb_spec conds v rows conds_NoDup H) as E.
    exact (f_equal (fun o => match o with Some r => r | None => [] end) E).
  Qed.

  Lemma values_listed v rows : In (v, rows) conds -> Permutation (listed rows) (cond_values rows).
  Proof.
    intros H. destruct (FT v rows H) as (Hne & Hr).
    pose proof (ok_states N SO _ _ (described_In v rows H)) as [_ ND]. cbn [states] in ND.
    apply NoDup_Permutation; auto; [apply set_of_NoDup|]. intros x. unfold cond_values. rewrite set_of_In, in_flat_map. split.
    - intros Hx. destruct rows as [|r rows]; [congruence|]. exists r. split; [left; auto|]. exact Hx.
    - intros (r & Hin & Hx). destruct (Hr r Hin) as [_ P]. eapply Permutation_in; eauto.
  Qed.

  Lemma built_reordered : reordered N as_built.
  Proof.
    assert (G : forall l, incl l conds ->
      Forall2 (fun x y : string * cpd => fst x = fst y /\ Permutation (states (snd x)) (states (snd y)) /\
                      parents (snd x) = parents (snd y) /\ prob (snd x) = prob (snd y))
       (map (fun vr => (fst vr, mkCpd (listed (snd vr)) (named (snd vr)) (stated (snd vr)))) l)
       (map (fun vr => (fst vr, mkCpd (order (fst vr) (cond_values (snd vr))) (named (snd vr)) (stated (snd vr)))) l)).
    { induction l as [|[v rows] l IH]; intros I; cbn [map]; constructor.
      - cbn [fst snd states parents prob]. split; auto. split; auto.
        rewrite OP. apply (values_listed v). apply I. left; auto.
      - apply IH. intros x Hx. apply I. right; auto. }
    apply G, incl_refl.
  Qed.

  Lemma as_built_In v c : In (v, c) as_built <-> exists rows, In (v, rows) conds /\
    c = mkCpd (order v (cond_values rows)) (named rows) (stated rows).
  Proof.
    unfold as_built. rewrite in_map_iff. split.
    - intros ([u rows] & [= <- <-] & H). eauto.
    - intros (rows & H & ->). exists (v, rows). auto.
  Qed.

  Definition table_fac (v : string) (c : cpd) : factor :=
    mkFactor (String.append "f_" v) (ssort (parents c) ++ [v])
      (fun args => match dget key_eqb (dict_of key_eqb (cond_items v (rows_of v))) (combine (ssort (parents c) ++ [v]) args) with
                   | Some p => Ok p
                   | None => Err KeyError
                   end).

  Lemma made v rows : In (v, rows) conds ->
    make_node_func order v rows = Ok (table_fac v (mkCpd (order v (cond_values rows)) (named rows) (stated rows)), order v (cond_values rows)).
  Proof.
    intros H. unfold make_node_func. destruct (FT v rows H) as (Hne & Hr).
    assert (Hi : exists k p, In (k, p) (cond_items v rows)).
    { destruct rows as [|r rows]; [congruence|].
      pose proof (ok_states N SO _ _ (described_In v _ H)) as [S _]. cbn [states listed] in S.
      destruct (snd r) as [|[s p] l] eqn:E; [exfalso; auto|].
      exists (cond_key (fst r) ++ [(v, s)]), p. apply items_In. exists r, s. split; [left; auto|].
      split; auto. rewrite E. left; auto. }
    destruct (rev (cond_items v rows)) as [|[k q] rest] eqn:E.
    { destruct Hi as (k & p & Hi). apply in_rev in Hi. rewrite E in Hi. destruct Hi. }
    assert (Hk : In (k, q) (cond_items v rows)) by (apply in_rev; rewrite E; left; auto).
    apply items_In in Hk as (r & s & Hin & _ & ->).
    destruct (Hr r Hin) as [P _].
    assert (K : map fst (cond_key (fst r) ++ [(v, s)]) = ssort (named rows) ++ [v]).
    { rewrite map_app, key_names. cbn [map fst]. f_equal. apply ssort_perm. auto. }
    unfold table_fac. cbn [parents]. rewrite (rows_of_In v rows H).
    change (list var) with (list string) in *. change var with string in *. rewrite K. auto.
  Qed.

  Lemma table_args v c : In (v, c) as_built -> Permutation (fargs (table_fac v c)) (v :: parents c).
  Proof.
    intros _. cbn [table_fac fargs]. rewrite Permutation_app_comm. cbn [app]. constructor.
    symmetry. apply isort_perm.
  Qed.

  Lemma built_ok : exists b, build_bbn_from_conditionals order conds = Ok b /\
    bdomains b = map (fun vr => (fst vr, order (fst vr) (cond_values (snd vr)))) conds /\
    Permutation (map (fun n => (nvar n, nfac n)) (bnodes b)) (gen_factors as_built table_fac) /\
    (forall n, In n (bnodes b) -> nparents n = other_args (nvar n) (nfac n)) /\
    topo (bnodes b).
  Proof.
    unfold build_bbn_from_conditionals.
    rewrite (mapM_ok_intro _ _ (fun vr => (fst vr, (table_fac (fst vr) (mkCpd (order (fst vr) (cond_values (snd vr))) (named (snd vr)) (stated (snd vr))), order (fst vr) (cond_values (snd vr)))))).
    2:{ intros [v rows] H. cbn [fst snd]. rewrite (made v rows H). reflexivity. }
    cbn [bind]. rewrite !map_map. cbn [fst snd].
    assert (SB : shape_ok as_built) by (apply (ro_shape N); [apply built_reordered|auto]).
    pose proof (g_good as_built SB table_fac (fun v c _ => eq_refl) table_args) as GF.
    destruct (build_bbn_ok _ GF (map (fun x => (fst x, order (fst x) (cond_values (snd x)))) conds)) as (b & E & D & P & HN & HT).
    exists b. split; [|auto]. etransitivity; [|exact E]. f_equal. unfold gen_factors, as_built. rewrite !map_map. auto.
  Qed.

  Section Complete.
  Hypothesis CV : covering conds.
  Hypothesis J : joined N.

  Lemma table_val v c (a : assign) : In (v, c) as_built -> In (a v) (states c) ->
    (forall p, In p (parents c) -> In (a p) (states_of as_built p)) ->
    ffun (table_fac v c) (map a (fargs (table_fac v c))) = Ok (prob c (a v) (map a (parents c))).
  Proof.
    intros H Hx Hp. apply as_built_In in H as (rows & H & ->). cbn [states parents prob] in *.
    destruct (FT v rows H) as (Hne & Hr).
    destruct (CV v rows (map a (named rows)) H) as (r & Er).
    { apply (ro_values N as_built built_reordered). clear -Hp. induction (named rows) as [|p l IH]; cbn [map]; constructor.
      - apply Hp. left; auto.
      - apply IH. intros q Hq. apply Hp. right; auto. }
    pose proof (ok_parents N SO _ _ (described_In v rows H)) as [NDp _]. cbn [parents] in NDp.
    pose proof (ok_states N SO _ _ (described_In v rows H)) as [_ NDs]. cbn [states] in NDs.
    assert (Hin : In r rows /\ is_for rows (map a (named rows)) r = true).
    { apply (filter_In (is_for rows (map a (named rows)))). rewrite Er. left; auto. }
    destruct Hin as [Hin Hfor].
    assert (Est : stated rows (a v) (map a (named rows)) = weight_in (snd r) (a v)).
    { unfold stated. replace (find (is_for rows (map a (named rows))) rows) with (Some r); auto.
      clear -Er. induction rows as [|r' l IH]; [discriminate|].
      cbn [filter] in Er. revert Er. generalize (is_for (r' :: l) (map a (named (r' :: l)))) as g. clear IH. intros g.
      revert r'. induction l as [|r2 l IH]; intros r' Er; cbn [filter find] in *.
      - destruct (g r'); [congruence|discriminate].
      - destruct (g r') eqn:Eg; [congruence|]. apply IH. exact Er. }
    rewrite Est. cbn [table_fac ffun fargs parents].
    assert (Ek : combine (ssort (named rows) ++ [v]) (map a (ssort (named rows) ++ [v])) =
                 map (fun p => (p, a p)) (ssort (named rows)) ++ [(v, a v)]).
    { generalize (ssort (named rows)) as l. induction l as [|p l IH]; auto. cbn [app map combine]. f_equal. exact IH. }
    change (list var) with (list string) in *. change var with string in *. change (list value) with (list label) in *.
    change value with label in *. rewrite Ek, (rows_of_In v rows H).
    destruct (Hr r Hin) as [Pr_ Ps].
    assert (NDr : NoDup (map fst (snd r))) by (eapply Permutation_NoDup; [symmetry; exact Ps|auto]).
    assert (Hs : In (a v) (map fst (snd r))).
    { eapply Permutation_in; [symmetry; exact Ps|]. eapply Permutation_in; [symmetry; apply (values_listed v rows H)|].
      eapply Permutation_in; [apply OP|]. exact Hx. }
    apply in_map_iff in Hs as ([s p] & Es & Hs). cbn [fst] in Es. subst s.
    rewrite (dict_of_only _ _ p).
    - rewrite (weight_in_In (snd r) (a v) p NDr Hs). auto.
    - apply items_In. exists r, (a v). split; auto. split; auto. f_equal. symmetry. apply (for_key rows a r NDp Pr_). auto.
    - intros p' H'. apply items_In in H' as (r' & s' & Hin' & Hs' & E').
      apply app_inj_tail in E' as [E1 E2]. injection E2 as E2. subst s'.
      destruct (Hr r' Hin') as [Pr' _].
      assert (F' : is_for rows (map a (named rows)) r' = true) by (apply (for_key rows a r' NDp Pr'); auto).
      assert (r' = r).
      { assert (X : In r' (filter (is_for rows (map a (named rows))) rows)) by (apply filter_In; auto).
        rewrite Er in X. destruct X as [X|[]]; auto. }
      subst r'. rewrite <- (weight_in_In (snd r) (a v) p NDr Hs). rewrite <- (weight_in_In (snd r) (a v) p' NDr Hs'). auto.
  Qed.

  Variable sc : sched.
  Hypothesis GS : good_sched sc.

  Theorem tables_query : exists b, build_bbn_from_conditionals order conds = Ok b /\
    (columns_sum_1 N -> Pr N (fun _ => true) = 1) /\
    forall obs, ~ In "self"%string (map fst obs) -> valid_obs N obs ->
      exists m, query_by_name sc b obs = Ok m /\ NoDup (map fst m) /\
        forall v s, dget pair_eqb m (v, s) =
          if (smem v (vars N) && lmem s (states_of N v))%bool then Some (expected N obs v s) else None.
  Proof.
    destruct built_ok as (b & E & D & P & HN & HT). exists b. split; [exact E|].
    pose proof built_reordered as RO.
    assert (SB : shape_ok as_built) by (apply (ro_shape N); auto).
    assert (JB : joined as_built) by (apply (ro_joined N); auto).
    assert (HD : forall v c, In (v, c) as_built -> dget String.eqb (bdomains b) v = Some (states c)).
    { intros v c H. apply as_built_In in H as (rows & H & ->). cbn [states]. rewrite D.
      apply (In_dget _ String.eqb_spec).
      - unfold dkeys. rewrite map_map. cbn [fst]. exact conds_NoDup.
      - apply in_map_iff. exists (v, rows). auto. }
    assert (WF : wf_bbn b).
    { apply (g_wf as_built SB table_fac (fun v c _ => eq_refl) table_args table_val b HD P HN HT JB). }
    split.
    { intros C. rewrite (ro_Pr N as_built RO).
      transitivity (total b (fun _ => true)).
      - symmetry. apply (g_total_Pr as_built SB table_fac table_val b HD P WF (fun _ => true)). auto.
      - apply total_mass; auto.
        apply (g_stochastic as_built SB table_fac table_args table_val b HD P HN).
        apply (ro_columns N); auto. }
    intros obs NS [ND Hobs].
    assert (Kv : forall v, In v (map nvar (bnodes b)) <-> In v (vars N)).
    { intros v. rewrite (g_vars as_built table_fac b P v), <- (ro_vars N as_built RO). reflexivity. }
    assert (Kd : forall v s, In v (vars N) -> In s (domain_of b v) <-> In s (states_of N v)).
    { intros v s Hv. rewrite (ro_vars N as_built RO) in Hv. rewrite (g_domain' as_built SB b HD v Hv).
      split; apply Permutation_in; [symmetry|]; apply ro_states; auto. }
    destruct (bbn_query_exact sc b obs GS WF ND) as (m & Em & NDm & Hm).
    { intros v x H. destruct (Hobs v x H) as [H1 H2]. split; [apply Kv; auto|]. apply Kd; auto. }
    exists m. unfold query_by_name. replace (smem "self"%string (map fst obs)) with false by (symmetry; apply smem_false; auto).
    split; [exact Em|]. split; [exact NDm|]. intros v s. rewrite Hm. unfold in_query. cbn [fst snd].
    assert (E1 : smem v (map nvar (bnodes b)) = smem v (vars N)).
    { apply eq_true_iff_eq. rewrite !smem_In. apply Kv. }
    rewrite E1. destruct (smem v (vars N)) eqn:S; [|auto]. apply smem_In in S.
    assert (E2 : lmem s (domain_of b v) = lmem s (states_of N v)).
    { apply eq_true_iff_eq. rewrite !lmem_In. apply Kd; auto. }
    rewrite E2. cbn [andb]. destruct (lmem s (states_of N v)); auto. f_equal.
    rewrite <- (ro_expected N as_built RO). unfold query_value, expected.
    assert (I : incl (map fst obs) (vars as_built)).
    { intros u Hu. apply in_map_iff in Hu as ([w x] & <- & Hin). rewrite <- (ro_vars N as_built RO). apply (Hobs w x Hin). }
    assert (Hv' : In v (vars as_built)) by (rewrite <- (ro_vars N as_built RO); auto).
    rewrite (g_and as_built SB table_fac table_val b HD P WF obs v s I Hv').
    rewrite (g_observed as_built SB table_fac table_val b HD P WF obs I).
    destruct obs; auto.
  Qed.
  End Complete.

  (** ** Tables with a missing row *)
  Lemma state_nonempty v b : (forall v c, In (v, c) as_built -> dget String.eqb (bdomains b) v = Some (states c)) ->
    bdomains b = map (fun vr => (fst vr, order (fst vr) (cond_values (snd vr)))) conds -> domain_of b v <> [].
  Proof.
    intros HD D. unfold domain_of. rewrite D.
    destruct (dget String.eqb _ v) as [l|] eqn:E; [|discriminate].
    apply (dget_In _ String.eqb_spec) in E. apply in_map_iff in E as ([u rows] & [= <- <-] & H).
    pose proof (ok_states N SO _ _ (described_In u rows H)) as [S _]. cbn [states] in S.
    intros Hn. apply S. apply Permutation_nil. rewrite <- Hn. rewrite OP. symmetry. apply (values_listed u). auto.
  Qed.

  Theorem tables_missing sc b v rows xs obs m : In (v, rows) conds ->
    Forall2 (fun p x => In x (states_of N p)) (named rows) xs ->
    (forall r, In r rows -> is_for rows xs r = false) ->
    build_bbn_from_conditionals order conds = Ok b -> query_by_name sc b obs <> Ok m.
  Proof.
    intros H Hxs Hno Hb Hq. destruct built_ok as (b' & E & D & P & HN & HT).
    rewrite E in Hb. injection Hb as ->. clear E.
    pose proof built_reordered as RO.
    assert (SB : shape_ok as_built) by (apply (ro_shape N); auto).
    assert (HD : forall v c, In (v, c) as_built -> dget String.eqb (bdomains b) v = Some (states c)).
    { intros u c Hu. apply as_built_In in Hu as (rows' & Hu & ->). cbn [states]. rewrite D.
      apply (In_dget _ String.eqb_spec).
      - unfold dkeys. rewrite map_map. cbn [fst]. exact conds_NoDup.
      - apply in_map_iff. exists (u, rows'). auto. }
    set (c := mkCpd (order v (cond_values rows)) (named rows) (stated rows)).
    assert (Hc : In (v, c) as_built) by (apply as_built_In; exists rows; auto).
    assert (Hn : exists n, In n (bnodes b) /\ nfac n = table_fac v c).
    { assert (X : In (v, table_fac v c) (map (fun n => (nvar n, nfac n)) (bnodes b))).
      { eapply Permutation_in; [symmetry; exact P|]. apply in_map_iff. exists (v, c). auto. }
      apply in_map_iff in X as (n & [= _ En] & Hn). exists n. auto. }
    destruct Hn as (n & Hn & En).
    pose proof (ok_parents N SO _ _ (described_In v rows H)) as [NDp Ip]. cbn [parents] in NDp, Ip.
    set (a := fun u => match dget String.eqb (combine (named rows) xs) u with Some x => x | None => hd (LInt 0) (domain_of b u) end).
    assert (Ea : map a (named rows) = xs).
    { clear -NDp Hxs. subst a. revert NDp. induction Hxs as [|p x ps xs Hx Hxs IH]; intros ND; auto.
      inversion ND as [|? ? Np ND']; subst. cbn [map combine dget]. rewrite String.eqb_refl. f_equal.
      etransitivity; [|apply IH; auto]. apply map_ext_in. intros u Hu.
      destruct (String.eqb_spec u p) as [->|]; auto. contradiction. }
    assert (Va : forall u, In (a u) (domain_of b u)).
    { intros u. unfold a. destruct (dget String.eqb (combine (named rows) xs) u) as [x|] eqn:G.
      - apply (dget_In _ String.eqb_spec) in G.
        assert (X : In u (named rows) /\ In x (states_of N u)).
        { clear -G Hxs. induction Hxs as [|p y ps xs Hy Hxs IH]; [destruct G|]. cbn [combine] in G.
          destruct G as [[= <- <-]|G]; [split; [left; auto|auto]|]. destruct (IH G). split; auto. right; auto. }
        destruct X as [Hu Hx]. apply Ip in Hu. rewrite (ro_vars N as_built RO) in Hu.
        rewrite (g_domain' as_built SB b HD u Hu). eapply Permutation_in; [apply (ro_states N as_built RO)|]. auto.
      - pose proof (state_nonempty u b HD D) as X. destruct (domain_of b u) as [|y l]; [congruence|]. left; auto. }
    unfold query_by_name in Hq. destruct (smem "self"%string (map fst obs)); [discriminate|].
    destruct (query_evaluates sc b obs m Hq n a Hn) as (q & Eq); auto.
    rewrite En in Eq. cbn [table_fac ffun fargs parents c] in Eq.
    assert (Ek : combine (ssort (named rows) ++ [v]) (map a (ssort (named rows) ++ [v])) =
                 map (fun p => (p, a p)) (ssort (named rows)) ++ [(v, a v)]).
    { generalize (ssort (named rows)) as l. induction l as [|p l IH]; auto. cbn [app map combine]. f_equal. exact IH. }
    change (list var) with (list string) in *. change var with string in *. change (list value) with (list label) in *.
    change value with label in *. rewrite Ek, (rows_of_In v rows H) in Eq.
    destruct (dget key_eqb _ _) as [p|] eqn:G in Eq; [|discriminate].
    pose proof (dget_dupdate _ key_eqb_spec (V := Qc) [] (cond_items v rows) (map (fun p => (p, a p)) (ssort (named rows)) ++ [(v, a v)])) as X.
    unfold dupdate in X. unfold dict_of in G. rewrite X in G.
    destruct (dget key_eqb (rev (cond_items v rows)) _) as [p'|] eqn:G' in G; [|discriminate].
    apply (dget_In _ key_eqb_spec) in G'. apply in_rev in G'. apply items_In in G' as (r & s & Hr & _ & Ekr).
    apply app_inj_tail in Ekr as [Ekr _].
    destruct (FT v rows H) as (_ & Hal). destruct (Hal r Hr) as [Pn _].
    pose proof (proj2 (for_key rows a r NDp Pn) (eq_sym Ekr)) as F. rewrite Ea, (Hno r Hr) in F. discriminate.
  Qed.
End Built.
