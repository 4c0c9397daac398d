(** * SampleProofs: samples are complete, consistent and drawn by inversion. *)
From Coq Require Import List Bool Arith ZArith Lia String QArith Qcanon Permutation.
From Verif Require Import Base QcX BbnModel SumOver Forest Elim Triang Kruskal RTree Sched Calib BbnTables BbnProofs BbnQuery BbnOrder InferModel InferOps SampleModel.
Import ListNotations.
Local Open Scope Qc_scope.
Local Open Scope list_scope.

(** ** Inversion *)
Lemma cumulative_cumul l : cumulative l = cumul 0 l.
Proof. destruct l as [|[x p] l]; auto. cbn [cumulative cumul]. replace (0 + p) with p by ring. auto. Qed.

Lemma Qcltb_false x y : Qcltb x y = false <-> y <= x.
Proof.
  split; intros H.
  - apply Qcnot_lt_le. intros L. apply Qcltb_lt in L. congruence.
  - destruct (Qcltb x y) eqn:E; auto. apply Qcltb_lt in E. exfalso. apply (Qclt_not_le _ _ E). auto.
Qed.

Lemma search_ok (f : value -> Qc) r l a : a < r -> r <= a + Qsum f l ->
  exists before x after, l = before ++ x :: after /\
    search r (cumul a (map (fun x => (x, f x)) l)) = Ok x /\
    a + Qsum f before < r /\ r <= a + Qsum f before + f x.
Proof.
  revert a. induction l as [|x l IH]; intros a L1 L2.
  - exfalso. rewrite Qsum_nil in L2. replace (a + 0) with a in L2 by ring. apply (Qclt_not_le _ _ L1). auto.
  - cbn [map cumul search]. destruct (Qcltb (a + f x) r) eqn:E.
    + apply Qcltb_lt in E. rewrite Qsum_cons in L2.
      destruct (IH (a + f x) E) as (before & y & after & El & Es & H1 & H2).
      { replace (a + f x + Qsum f l) with (a + (f x + Qsum f l)) by ring. auto. }
      exists (x :: before), y, after. split; [rewrite El; auto|]. split; auto. rewrite Qsum_cons.
      split.
      * replace (a + (f x + Qsum f before)) with (a + f x + Qsum f before) by ring. auto.
      * replace (a + (f x + Qsum f before) + f y) with (a + f x + Qsum f before + f y) by ring. auto.
    + apply Qcltb_false in E. exists [], x, l. split; auto. split; auto. rewrite Qsum_nil.
      split; [replace (a + 0) with a by ring; auto|]. replace (a + 0 + f x) with (a + f x) by ring. auto.
Qed.

(** ** The densities read from a query *)
Lemma marg_eq (m : marg) (g : var * value -> Qc) : NoDup (dkeys m) ->
  (forall k, In k (dkeys m) -> dget pair_eqb m k = Some (g k)) -> m = map (fun k => (k, g k)) (dkeys m).
Proof.
  intros ND H. unfold dkeys. rewrite map_map. rewrite <- map_id at 1. apply map_ext_in. intros [k q] Hin. cbn [fst].
  f_equal. pose proof (In_dget _ pair_eqb_spec m k q ND Hin) as E. rewrite H in E; [congruence|].
  apply in_map_iff. exists (k, q). auto.
Qed.

Lemma filter_flat_map {A B} (p : B -> bool) (f : A -> list B) l :
  filter p (flat_map f l) = flat_map (fun x => filter p (f x)) l.
Proof. induction l as [|x l IH]; auto. cbn [flat_map]. rewrite filter_app, IH. auto. Qed.

Lemma filter_map_comm {A B} (p : B -> bool) (f : A -> B) l : filter p (map f l) = map f (filter (fun x => p (f x)) l).
Proof. induction l as [|x l IH]; auto. cbn [map filter]. destruct (p (f x)); cbn [map]; rewrite IH; auto. Qed.

Lemma filter_const {A} (c : bool) (l : list A) : filter (fun _ => c) l = if c then l else [].
Proof. induction l as [|x l IH]; destruct c; auto. cbn [filter]. rewrite IH. auto. Qed.

Lemma density_eq (b : bbn) (m : marg) (g : var -> value -> Qc) n :
  NoDup (map nvar (bnodes b)) -> In n (bnodes b) -> NoDup (dkeys m) ->
  dkeys m = flat_map (fun n => map (pair (nvar n)) (domain_of b (nvar n))) (bnodes b) ->
  (forall v x, In v (map nvar (bnodes b)) -> In x (domain_of b v) -> dget pair_eqb m (v, x) = Some (g v x)) ->
  density m (nvar n) = map (fun x => (x, g (nvar n) x)) (domain_of b (nvar n)).
Proof.
  intros NDn Hn ND K H. unfold density.
  rewrite (marg_eq m (fun k => g (fst k) (snd k)) ND) at 1.
  2:{ intros [v x] Hk. rewrite K in Hk. apply in_flat_map in Hk as (n' & Hn' & Hk).
      apply in_map_iff in Hk as (y & [= <- <-] & Hy). cbn [fst snd].
      exact (H _ _ (in_map nvar _ _ Hn') Hy). }
  rewrite K. rewrite filter_map_comm, map_map. cbn [fst snd]. rewrite filter_flat_map.
  assert (E : flat_map (fun x => filter (fun x0 => String.eqb (fst x0) (nvar n)) (map (pair (nvar x)) (domain_of b (nvar x)))) (bnodes b)
              = map (pair (nvar n)) (domain_of b (nvar n))).
  { clear -NDn Hn. induction (bnodes b) as [|n' l IH]; [destruct Hn|]. cbn [map] in NDn. inversion NDn as [|? ? N1 N2]; subst.
    cbn [flat_map]. rewrite filter_map_comm. cbn [fst]. rewrite filter_const.
    destruct (String.eqb_spec (nvar n') (nvar n)) as [Eq|Ne].
    - rewrite Eq. assert (Z : flat_map (fun x => filter (fun x0 => String.eqb (fst x0) (nvar n)) (map (pair (nvar x)) (domain_of b (nvar x)))) l = []).
      { assert (Hno : forall x, In x l -> nvar x <> nvar n).
        { intros x Hx E. apply N1. rewrite Eq, <- E. apply in_map; auto. }
        clear -Hno. induction l as [|x l IH]; auto. cbn [flat_map]. rewrite IH by (intros; apply Hno; right; auto).
        rewrite filter_map_comm. cbn [fst]. rewrite filter_const.
        destruct (String.eqb_spec (nvar x) (nvar n)) as [E|_]; [|auto]. exfalso. apply (Hno x); auto. left; auto. }
      rewrite Z, app_nil_r. auto.
    - cbn [map app]. apply IH; auto. destruct Hn as [->|?]; [congruence|auto]. }
  rewrite E, map_map. auto.
Qed.

(** ** Permuted evidence *)
Lemma matches_perm s s' w : Permutation s s' -> matches s w = matches s' w.
Proof.
  intros P. unfold matches. induction P; cbn [forallb]; auto; try congruence.
  - destruct (label_eqb (look w (fst y)) (snd y)), (label_eqb (look w (fst x)) (snd x)); auto.
Qed.

Lemma query_value_perm b s s' v x : Permutation s s' -> query_value b s v x = query_value b s' v x.
Proof.
  intros P. unfold query_value.
  assert (E1 : total b (matches s) = total b (matches s')).
  { unfold total. rewrite (filter_ext _ (matches s')); auto. intros w. apply matches_perm; auto. }
  assert (E2 : total b (fun w => matches s w && label_eqb (look w v) x)%bool
             = total b (fun w => matches s' w && label_eqb (look w v) x)%bool).
  { unfold total. rewrite (filter_ext _ (fun w => matches s' w && label_eqb (look w v) x)%bool); auto.
    intros w. rewrite (matches_perm s s' w P). auto. }
  destruct s as [|e s]; destruct s' as [|e' s'].
  - auto.
  - apply Permutation_length in P. discriminate.
  - apply Permutation_length in P. discriminate.
  - cbv zeta. rewrite E1, E2. auto.
Qed.

Lemma items_key_perm s s' : items_key s = items_key s' -> Permutation s s'.
Proof.
  intros E. unfold items_key in E. transitivity (isort (fun a b : var * value => sleb (fst a) (fst b)) s).
  - apply isort_perm.
  - rewrite E. apply Permutation_sym, isort_perm.
Qed.

(** ** Samples *)
Section Samples.
  Variables (D : draws) (b : bbn).
  Hypothesis WF : wf_bbn b.
  Hypothesis GS : forall i j, good_sched (scheds D i j).
  Hypothesis NS : ~ In "self"%string (map nvar (bnodes b)).
  Hypothesis T1 : total b (fun _ => true) = 1.
  Hypothesis R01 : forall i j, 0 < rnd D i j /\ rnd D i j <= 1.

  (** A partial sample: distinct variables with values of their domains, of positive probability. *)
  Definition part (s : list (var * value)) : Prop :=
    NoDup (map fst s) /\
    (forall v x, In (v, x) s -> In v (map nvar (bnodes b)) /\ In x (domain_of b v)) /\
    total b (matches s) <> 0.

  Definition cache_ok (c : cache) : Prop :=
    forall k m, In (k, m) c -> forall s, part s -> items_key s = k ->
      NoDup (dkeys m) /\
      dkeys m = flat_map (fun n => map (pair (nvar n)) (domain_of b (nvar n))) (bnodes b) /\
      forall v x, In v (map nvar (bnodes b)) -> In x (domain_of b v) ->
        dget pair_eqb m (v, x) = Some (query_value b s v x).

  Lemma query_value_sum s v : part s -> In v (map nvar (bnodes b)) ->
    Qsum (query_value b s v) (domain_of b v) = 1.
  Proof.
    intros (ND & HI & NZ) Hv.
    assert (I : incl (map fst s) (map nvar (bnodes b))).
    { intros u Hu. apply in_map_iff in Hu as ([w x] & <- & H). apply (HI w x H). }
    assert (S : Qsum (fun x => total b (fun w => matches s w && label_eqb (look w v) x)%bool) (domain_of b v)
                = total b (matches s)).
    { rewrite <- (msum_total b WF s v ND I Hv). apply Qsum_ext. intros x Hx. apply total_msum; auto. }
    destruct s as [|e s'] eqn:Es.
    - unfold query_value. cbv zeta. rewrite S. exact T1.
    - rewrite <- Es in *. transitivity (Qsum (fun x => total b (fun w => matches s w && label_eqb (look w v) x)%bool * / total b (matches s)) (domain_of b v)).
      + apply Qsum_ext. intros x Hx. unfold query_value. cbv zeta. rewrite Es at 1.
        destruct (Qc_eq_bool_spec (total b (matches s)) 0); [tauto|]. reflexivity.
      + rewrite Qsum_mul_r, S. apply Qc_inv_r. auto.
  Qed.

  Lemma query_value_nz s v x : part s -> In v (map nvar (bnodes b)) -> ~ In v (map fst s) -> In x (domain_of b v) ->
    query_value b s v x <> 0 -> part (s ++ [(v, x)]).
  Proof.
    intros (ND & HI & NZ) Hv Nv Hx Q. split; [|split].
    - rewrite map_app. cbn [map fst]. apply NoDup_app_intro; auto.
      + repeat constructor. intros [].
      + intros u Hu [<-|[]]. auto.
    - intros u y Hin. apply in_app_iff in Hin as [Hin|[[= <- <-]|[]]]; auto.
    - assert (E : total b (matches (s ++ [(v, x)])) = total b (fun w => matches s w && label_eqb (look w v) x)%bool).
      { unfold total. f_equal. apply filter_ext. intros w. unfold matches. rewrite forallb_app. cbn [forallb fst snd].
        rewrite andb_true_r. auto. }
      rewrite E. intros Z. apply Q. unfold query_value. cbv zeta.
      destruct s as [|e s'] eqn:Es; [exact Z|]. rewrite <- Es in *.
      destruct (Qc_eq_bool_spec (total b (matches s)) 0); [exact Z|]. rewrite Z. unfold Qcdiv. ring.
  Qed.

  (** One step. *)
  Definition step_spec (i j : nat) (s : list (var * value)) (v : var) (x : value) : Prop :=
    let free := filter (fun u => negb (smem u (map fst s))) (map nvar (bnodes b)) in
    nth_error free (pick D i j mod List.length free) = Some v /\
    exists before after, domain_of b v = before ++ x :: after /\
      Qsum (query_value b s v) before < rnd D i j /\
      rnd D i j <= Qsum (query_value b s v) before + query_value b s v x.

  Lemma sample_step_ok i j c s : part s -> cache_ok c -> (List.length s < List.length (bnodes b))%nat ->
    exists c' v x, sample_step D b i j c s = Ok (c', s ++ [(v, x)]) /\ cache_ok c' /\
      part (s ++ [(v, x)]) /\ step_spec i j s v x.
  Proof.
    intros P CO L. unfold sample_step.
    set (free := filter (fun n => negb (smem (nvar n) (map fst s))) (bnodes b)).
    assert (NDn : NoDup (map nvar (bnodes b))) by (apply (topo_NoDup _ (wf_topo b WF))).
    assert (Fr : free <> []).
    { intros E. assert (I : incl (map nvar (bnodes b)) (map fst s)).
      { intros v Hv. apply in_map_iff in Hv as (n & <- & Hn). destruct (smem (nvar n) (map fst s)) eqn:S.
        - apply smem_In; auto.
        - exfalso. assert (X : In n free) by (apply filter_In; rewrite S; auto). rewrite E in X. destruct X. }
      apply NoDup_incl_length in I; auto. rewrite !map_length in I. lia. }
    assert (Lf : (pick D i j mod List.length free < List.length free)%nat).
    { apply Nat.mod_upper_bound. destruct free; [congruence|discriminate]. }
    destruct (nth_error free (pick D i j mod List.length free)) as [n|] eqn:En.
    2:{ apply nth_error_None in En. lia. }
    assert (Hn : In n free) by (eapply nth_error_In; eauto).
    apply filter_In in Hn as [Hn Nn]. apply negb_true_iff, smem_false in Nn.
    assert (Hv : In (nvar n) (map nvar (bnodes b))) by (apply in_map; auto).
    assert (X : exists c' m, (match dget key_eqb c (items_key s) with
                | Some _ => Ok c
                | None => do m <- sample_query (scheds D i j) b s; Ok (c ++ [(items_key s, m)])
                end) = Ok c' /\ cache_ok c' /\ dget key_eqb c' (items_key s) = Some m).
    { destruct (dget key_eqb c (items_key s)) as [m|] eqn:Ed.
      - exists c, m. auto.
      - destruct P as (ND & HI & NZ).
        destruct (bbn_query_exact (scheds D i j) b s (GS i j) WF ND HI) as (m & Em & NDm & Hm).
        pose proof (bbn_query_order (scheds D i j) b s m (GS i j) WF HI Em) as Km.
        unfold sample_query. replace (smem "self"%string (map fst s)) with false.
        2:{ symmetry. apply smem_false. intros H. apply in_map_iff in H as ([u x] & E & H). cbn [fst] in E. subst u.
            apply NS. apply (HI _ _ H). }
        rewrite Em. cbn [bind]. exists (c ++ [(items_key s, m)]), m. split; auto. split.
        + intros k m' Hin s' P' Ek. apply in_app_iff in Hin as [Hin|[[= <- <-]|[]]].
          * apply (CO k m' Hin s' P' Ek).
          * split; auto. split; auto. intros v x Hv' Hx. rewrite Hm. unfold in_query. cbn [fst snd].
            apply smem_In in Hv'. apply lmem_In in Hx. rewrite Hv', Hx. cbn [andb]. f_equal.
            apply query_value_perm, Permutation_sym, items_key_perm. auto.
        + clear -Ed. induction c as [|[k q] c IH]; cbn [app dget] in *.
          * destruct (key_eqb_spec (items_key s) (items_key s)); [auto|congruence].
          * destruct (key_eqb (items_key s) k); [discriminate|auto]. }
    destruct X as (c' & m & Ec & CO' & Ed). rewrite Ec. cbn [bind]. rewrite Ed.
    apply (dget_In _ key_eqb_spec) in Ed.
    destruct (CO' _ _ Ed s P eq_refl) as (NDm & Km & Hm).
    rewrite (density_eq b m (query_value b s) n NDn Hn NDm Km Hm).
    rewrite cumulative_cumul.
    destruct (R01 i j) as [R0 R1].
    destruct (search_ok (query_value b s (nvar n)) (rnd D i j) (domain_of b (nvar n)) 0) as (bf & x & af & Ed' & Es & H1 & H2).
    { auto. }
    { rewrite query_value_sum by auto. replace (0 + 1) with 1 by ring. auto. }
    rewrite Es. cbn [bind]. exists c', (nvar n), x. split; auto. split; auto.
    replace (0 + Qsum (query_value b s (nvar n)) bf) with (Qsum (query_value b s (nvar n)) bf) in * by ring.
    split.
    - apply query_value_nz; auto.
      + rewrite Ed'. apply in_app_iff. right; left; auto.
      + intros Z. rewrite Z in H2.
        replace (Qsum (query_value b s (nvar n)) bf + 0) with (Qsum (query_value b s (nvar n)) bf) in H2 by ring.
        apply (Qclt_not_le _ _ H1). auto.
    - split.
      + rewrite filter_map_comm. fold free. rewrite map_length. rewrite nth_error_map, En. auto.
      + exists bf, af. auto.
  Qed.

  (** A whole sample: evidence first, then one step for each further variable. *)
  Definition sample_spec (i : nat) (q s : list (var * value)) : Prop :=
    exists new, s = q ++ new /\
      forall j v x, nth_error new j = Some (v, x) -> step_spec i j (q ++ firstn j new) v x.

  Lemma sample_loop_ok i q c new fuel : part (q ++ new) -> cache_ok c ->
    (forall j v x, nth_error new j = Some (v, x) -> step_spec i j (q ++ firstn j new) v x) ->
    (List.length (bnodes b) - List.length (q ++ new) <= fuel)%nat ->
    exists c' s, sample_loop fuel D b i (List.length new) c (q ++ new) = Ok (c', s) /\ cache_ok c' /\
      part s /\ sample_spec i q s /\ (List.length (bnodes b) <= List.length s)%nat.
  Proof.
    revert c new. induction fuel as [|fuel IH]; intros c new P CO SP L; cbn [sample_loop].
    - destruct (Nat.ltb_spec (List.length (q ++ new)) (List.length (bnodes b))); [lia|].
      exists c, (q ++ new). split; auto. split; auto. split; auto. split; auto. exists new. auto.
    - destruct (Nat.ltb_spec (List.length (q ++ new)) (List.length (bnodes b))) as [Lt|Ge].
      2:{ exists c, (q ++ new). split; auto. split; auto. split; auto. split; auto. exists new. auto. }
      destruct (sample_step_ok i (List.length new) c (q ++ new) P CO Lt) as (c' & v & x & E & CO' & P' & SS).
      rewrite E. cbn [bind fst snd].
      destruct (IH c' (new ++ [(v, x)])) as (c2 & s & E2 & R).
      + rewrite app_assoc. auto.
      + auto.
      + intros j u y Hj. destruct (Nat.ltb_spec j (List.length new)) as [Lj|Gj].
        * rewrite nth_error_app1 in Hj by auto. rewrite firstn_app.
          replace (j - List.length new)%nat with 0%nat by lia. cbn [firstn]. rewrite app_nil_r. auto.
        * rewrite nth_error_app2 in Hj by auto.
          destruct (j - List.length new)%nat as [|z] eqn:Ez; [|destruct z; discriminate].
          injection Hj as <- <-. assert (j = List.length new) by lia. subst j.
          rewrite firstn_app, Nat.sub_diag, firstn_all. cbn [firstn]. rewrite app_nil_r. auto.
      + rewrite app_assoc, app_length. cbn [List.length]. lia.
      + rewrite app_length in E2. cbn [List.length] in E2. rewrite Nat.add_1_r in E2. rewrite app_assoc in E2.
        exists c2, s. auto.
  Qed.

  Lemma draw_loop_ok todo q : part q -> forall i c, cache_ok c ->
    exists ss, draw_loop todo D b q i c = Ok ss /\ List.length ss = todo /\
      forall k s, nth_error ss k = Some s -> part s /\ sample_spec (i + k) q s /\
        (List.length (bnodes b) <= List.length s)%nat.
  Proof.
    intros P. induction todo as [|todo IH]; intros i c CO; cbn [draw_loop].
    - exists []. split; auto. split; auto. intros [|k] s H; discriminate.
    - destruct (sample_loop_ok i q c [] (List.length (bnodes b))) as (c' & s & E & CO' & Ps & Ss & Ls).
      + rewrite app_nil_r. auto.
      + auto.
      + intros [|j] v x H; discriminate.
      + lia.
      + rewrite app_nil_r in E. cbn [List.length] in E. rewrite E. cbn [bind fst snd].
        destruct (IH (S i) c' CO') as (ss & E2 & Len & H). rewrite E2. cbn [bind].
        exists (s :: ss). split; auto. split; [cbn; lia|]. intros [|k] s' Hk; cbn [nth_error] in Hk.
        * injection Hk as <-. rewrite Nat.add_0_r. auto.
        * destruct (H k s' Hk) as (H1 & H2 & H3). split; auto. split; auto. rewrite Nat.add_succ_r. auto.
  Qed.

  Lemma part_complete s : part s -> (List.length (bnodes b) <= List.length s)%nat ->
    Permutation (map fst s) (map nvar (bnodes b)).
  Proof.
    intros (ND & HI & _) L. apply NoDup_Permutation_bis; auto.
    - rewrite !map_length. auto.
    - intros u Hu. apply in_map_iff in Hu as ([w x] & <- & H). apply (HI w x H).
  Qed.

  Theorem draw_samples_ok q n : part q ->
    exists ss, draw_samples D b q n = Ok ss /\ List.length ss = n /\
      forall k s, nth_error ss k = Some s ->
        Permutation (map fst s) (map nvar (bnodes b)) /\
        (forall v x, In (v, x) s -> In x (domain_of b v)) /\
        (forall v x, In (v, x) q -> In (v, x) s) /\
        total b (matches s) <> 0 /\
        sample_spec k q s.
  Proof.
    intros P. destruct (draw_loop_ok n q P 0 []) as (ss & E & L & H).
    - intros k m [].
    - exists ss. split; auto. split; auto. intros k s Hk. destruct (H k s Hk) as (Ps & Ss & Ls).
      split; [apply part_complete; auto|]. split; [intros v x Hin; apply Ps; auto|].
      split; [|split; [apply Ps|exact Ss]].
      destruct Ss as (new & -> & _). intros v x Hin. apply in_app_iff. auto.
  Qed.
End Samples.
