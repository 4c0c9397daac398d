(** * InferEngine: constructor, query, interventions and histories of the inference engine. *)
From Coq Require Import List Bool Arith ZArith Lia String QArith Qcanon Permutation Relations.
From Verif Require Import Base QcX Digraph BbnModel SumOver Forest Elim Triang Kruskal RTree Sched Calib BbnTables BbnProofs BbnQuery BbnBuild InferModel InferSpec InferProofs.
Import ListNotations.
Local Open Scope Qc_scope.
Local Open Scope list_scope.

(** ** Specification side: networks after interventions *)

Definition dist := list (label * Qc).

(** The network with the CPDs of some variables replaced. *)
Definition edited (h : string -> option dist) (N : net) : net :=
  map (fun vc => match h (fst vc) with Some d => (fst vc, fixed (snd vc) d) | None => vc end) N.

(** A distribution over the states of a variable. *)
Definition dist_on (sts : list label) (d : dist) : Prop :=
  NoDup (map fst d) /\ (forall s, In s (map fst d) <-> In s sts) /\
  (forall s p, In (s, p) d -> 0 <= p <= 1) /\ Qsum snd d = 1.

Definition dists_ok (N : net) (h : string -> option dist) : Prop :=
  forall v c d, In (v, c) N -> h v = Some d -> dist_on (states c) d.

(** All mass on one integer state. *)
Definition point (sts : list label) (z : Z) : dist :=
  map (fun s => (s, if label_eqb s (LInt z) then 1 else 0)) sts.

(** ** Lemmas on edited networks *)
Lemma edited_vars h N : vars (edited h N) = vars N.
Proof.
  unfold edited, vars. rewrite map_map. apply map_ext. intros [v c]. cbn [fst].
  destruct (h v); auto.
Qed.

Lemma edited_states h N p : states_of (edited h N) p = states_of N p.
Proof.
  unfold states_of, edited. induction N as [|[v c] N IH]; auto. cbn [map find fst].
  destruct (h v); cbn [find fst]; destruct (String.eqb v p); auto.
Qed.

Lemma edited_In h N v c' : In (v, c') (edited h N) <->
  exists c, In (v, c) N /\ c' = match h v with Some d => fixed c d | None => c end.
Proof.
  unfold edited. rewrite in_map_iff. split.
  - intros ([u c] & E & H). cbn [fst snd] in E. destruct (h u) eqn:Hu; injection E as <- <-;
      exists c; rewrite Hu; auto.
  - intros (c & H & ->). exists (v, c). split; auto. cbn [fst snd]. destruct (h v); auto.
Qed.

Lemma ps_ok_edited h N ps xs : ps_ok (edited h N) ps xs <-> ps_ok N ps xs.
Proof.
  unfold ps_ok. split; intros F; induction F; constructor; auto; rewrite edited_states in *; auto.
Qed.

Lemma weight_in_In d s p : NoDup (map fst d) -> In (s, p) d -> weight_in d s = p.
Proof.
  unfold weight_in. induction d as [|[u q] d IH]; intros ND H; [destruct H|].
  cbn [find fst]. cbn [map fst] in ND. inversion ND as [|? ? Nu ND']; subst.
  destruct (label_eqb_spec u s) as [->|Ne].
  - destruct H as [[= <-]|H]; auto. exfalso. apply Nu. apply in_map_iff. exists (s, p); auto.
  - destruct H as [[= -> _]|H]; [congruence|auto].
Qed.

Lemma edited_shape h N : shape_ok N -> dists_ok N h -> shape_ok (edited h N).
Proof.
  intros SO DO. constructor.
  - rewrite edited_vars. apply ok_vars; auto.
  - intros E. apply (ok_ne N SO). destruct N; auto. discriminate.
  - intros v c' H. apply edited_In in H as (c & H & ->). destruct (h v); cbn [fixed states]; apply (ok_states N SO v c H).
  - intros v c' H. apply edited_In in H as (c & H & ->). rewrite edited_vars.
    destruct (h v); cbn [fixed parents].
    + split; [constructor|intros x []].
    + apply (ok_parents N SO v c H).
  - apply (acyclic_incl _ (parent_arrows N)); [|apply ok_dag; auto].
    intros [p v] H. unfold parent_arrows in *. apply in_flat_map in H as ([u c'] & Hin & H).
    cbn [fst snd] in H. apply edited_In in Hin as (c & Hin & ->). apply in_flat_map. exists (u, c). split; auto.
    cbn [fst snd]. destruct (h u); cbn [fixed parents map] in H; [destruct H|auto].
  - intros v c' s ps H Hs Hp. apply edited_In in H as (c & H & ->). apply ps_ok_edited in Hp.
    destruct (h v) as [d|] eqn:Hd; cbn [fixed states prob] in *.
    + destruct (DO v c d H Hd) as (ND & K & B & _). apply K in Hs. apply in_map_iff in Hs as ([u p] & <- & Hin).
      cbn [fst]. rewrite (weight_in_In d u p ND Hin). apply (B u p Hin).
    + apply (ok_nonneg N SO v c); auto.
Qed.

Lemma fst_snd_weight d : NoDup (map fst d) -> forall sts, NoDup sts -> (forall s, In s (map fst d) <-> In s sts) ->
  Qsum (weight_in d) sts = Qsum snd d.
Proof.
  intros ND sts NDs K.
  rewrite (Qsum_perm _ sts (map fst d)).
  - rewrite Qsum_map. apply Qsum_ext. intros [s p] H. cbn [fst snd]. apply weight_in_In; auto.
  - apply NoDup_Permutation; auto. intros x. symmetry. apply K.
Qed.

Lemma edited_columns h N : shape_ok N -> dists_ok N h -> columns_sum_1 N -> columns_sum_1 (edited h N).
Proof.
  intros SO DO C v c' ps H Hp. apply edited_In in H as (c & H & ->). apply ps_ok_edited in Hp.
  destruct (h v) as [d|] eqn:Hd; cbn [fixed states prob].
  - destruct (DO v c d H Hd) as (ND & K & B & S). rewrite fst_snd_weight; auto.
    apply (ok_states N SO v c H).
  - apply (C v c ps H Hp).
Qed.

(** ** Engine invariant *)
Record eng_ok (e : eng) (N : net) (h : string -> option dist) : Prop := {
  eo_rep : rep_cpds (e_cpds e) (edited h N);
  eo_orig : rep_cpds (e_orig e) N;
  eo_doms : forall v c, In (v, c) N -> dget String.eqb (e_doms e) v = Some (states c);
  eo_dists : dists_ok N h;
  eo_funs : e_funs e = net_factors (e_cpds e) (edited h N);
  eo_bbn : build_engine_bbn (e_funs e) (e_doms e) = Ok (e_bbn e)
}.

Definition names_ok (N : net) : Prop :=
  (forall v, In v (vars N) -> is_identifier v = true) /\ ~ In "self"%string (vars N).

Definition valid_obs (N : net) (obs : list (string * label)) : Prop :=
  NoDup (map fst obs) /\ forall v x, In (v, x) obs -> In v (vars N) /\ In x (states_of N v).

(** The answer of a query for state [s] of [v]. *)
Definition answer (r : qresult) (v : string) (s : label) : option Qc :=
  match dget String.eqb r v with Some d => dget label_eqb d s | None => None end.

Definition expected (N : net) (obs : list (string * label)) (v : string) (s : label) : Qc :=
  match obs with
  | [] => Pr_and N obs v s
  | _ => if Qc_eq_bool (Pr N (observed obs)) 0 then Pr_and N obs v s
         else Pr_and N obs v s / Pr N (observed obs)
  end.

Section QueryTheorem.
  Variables (sc : sched) (e : eng) (N : net) (h : string -> option dist).
  Hypothesis GS : good_sched sc.
  Hypothesis SO : shape_ok N.
  Hypothesis NO : names_ok N.
  Hypothesis EO : eng_ok e N h.
  Let N' := edited h N.

  Lemma built_facts : exists b, e_bbn e = b /\
    (forall v c, In (v, c) N' -> dget String.eqb (bdomains b) v = Some (states c)) /\
    Permutation (map (fun n => (nvar n, nfac n)) (bnodes b)) (net_factors (e_cpds e) N') /\
    (forall n, In n (bnodes b) -> nparents n = other_args (nvar n) (nfac n)) /\
    topo (bnodes b).
  Proof.
    assert (SO' : shape_ok N') by (apply edited_shape; auto; apply (eo_dists e N h EO)).
    assert (IDS : forall v, In v (vars N') -> is_identifier v = true).
    { intros v Hv. unfold N' in Hv. rewrite edited_vars in Hv. apply NO; auto. }
    destruct (build_engine_ok N' SO' (e_cpds e) IDS (e_doms e)) as (b & E & D & P & HN & T).
    exists b. pose proof (eo_bbn e N h EO) as Eb. rewrite (eo_funs e N h EO) in Eb. fold N' in Eb.
    rewrite E in Eb. injection Eb as <-. split; auto. rewrite D. split; [|auto].
      intros v c H. apply edited_In in H as (c0 & H & ->). rewrite (eo_doms e N h EO v c0 H).
      destruct (h v); auto.
  Qed.

  Hypothesis J : joined N'.

  Lemma collect_results (m : marg) (r0 : qresult) :
    (forall k, In k (dkeys m) -> In (fst k) (dkeys r0)) -> NoDup (dkeys m) ->
    exists r, foldM (fun r kv =>
             match dget String.eqb r (fst (fst kv)) with
             | None => Err KeyError
             | Some d => Ok (dset String.eqb r (fst (fst kv)) (dset label_eqb d (snd (fst kv)) (snd kv)))
             end) m r0 = Ok r /\ dkeys r = dkeys r0 /\
      forall v, dget String.eqb r v = match dget String.eqb r0 v with
        | None => None
        | Some d => Some (fold_left (fun d kv => if String.eqb (fst (fst kv)) v then dset label_eqb d (snd (fst kv)) (snd kv) else d) m d)
        end.
  Proof.
    revert r0. induction m as [|[[v x] q] m IH]; intros r0 Hk ND.
    - exists r0. split; auto. split; auto. intros v. cbn [fold_left]. destruct (dget String.eqb r0 v); auto.
    - cbn [foldM fst snd].
      assert (Hv : In v (dkeys r0)) by (apply (Hk (v, x)); left; auto).
      destruct (dget_key_Some _ String.eqb_spec r0 v Hv) as (d & Ed). change var with string in *.
      rewrite Ed. cbn [bind].
      assert (Ek : dkeys (dset String.eqb r0 v (dset label_eqb d x q)) = dkeys r0).
      { rewrite (dkeys_dset _ String.eqb_spec). replace (dhas String.eqb r0 v) with true; auto.
        symmetry. apply (memb_In _ String.eqb_spec). auto. }
      destruct (IH (dset String.eqb r0 v (dset label_eqb d x q))) as (r & E & K & G).
      + intros k H. rewrite Ek. apply Hk. right; auto.
      + inversion ND; auto.
      + exists r. split; auto. split; [congruence|]. intros u. rewrite G.
        rewrite (dget_dset _ String.eqb_spec). cbn [fold_left fst snd].
        destruct (String.eqb_spec u v) as [->|Ne].
        * rewrite Ed, String.eqb_refl. auto.
        * destruct (dget String.eqb r0 u); auto.
          destruct (String.eqb_spec v u); [congruence|auto].
  Qed.

  Lemma fold_state_dict (m : marg) v : NoDup (dkeys m) -> forall d0 : list (value * Qc),
    (forall x, In (v, x) (dkeys m) -> ~ In x (dkeys d0)) -> NoDup (dkeys d0) ->
    let d := fold_left (fun d kv => if String.eqb (fst (fst kv)) v then dset label_eqb d (snd (fst kv)) (snd kv) else d) m d0 in
    NoDup (dkeys d) /\
    forall x, dget label_eqb d x = match dget pair_eqb m (v, x) with Some q => Some q | None => dget label_eqb d0 x end.
  Proof.
    induction m as [|[[u y] q] m IH]; intros ND d0 Hd ND0; cbn [fold_left fst snd].
    - split; auto.
    - cbn [dkeys map fst] in ND. inversion ND as [|? ? Nu ND']; subst.
      destruct (String.eqb_spec u v) as [->|Ne].
      + destruct (IH ND' (dset label_eqb d0 y q)) as (A & B).
        * intros x Hx. rewrite (dkeys_dset_In _ label_eqb_spec). intros [->|H]; [apply Nu; auto|].
          revert H. apply Hd. right; auto.
        * apply (dset_NoDup _ label_eqb_spec); auto.
        * split; [exact A|]. intros x. rewrite B, (dget_dset _ label_eqb_spec). cbn [dget].
          destruct (pair_eqb_spec (v, x) (v, y)) as [[= ->]|Np].
          -- destruct (label_eqb_spec y y); [|congruence].
             assert (Hn : dget pair_eqb m (v, y) = None) by (apply (dget_None _ pair_eqb_spec); auto).
             rewrite Hn. auto.
          -- destruct (label_eqb_spec x y); [congruence|auto].
      + destruct (IH ND' d0) as (A & B); auto.
        * intros x Hx. apply Hd. right; auto.
        * split; [exact A|]. intros x. rewrite B. cbn [dget].
          destruct (pair_eqb_spec (v, x) (u, y)) as [[= -> _]|]; [congruence|auto].
  Qed.

  Theorem engine_query_ok obs : valid_obs N obs ->
    exists r, engine_query sc e obs = Ok r /\ map fst r = vars N /\
      (forall v s, In v (vars N) -> In s (states_of N v) -> answer r v s = Some (expected N' obs v s)) /\
      (forall v s, ~ (In v (vars N) /\ In s (states_of N v)) -> answer r v s = None) /\
      (forall v d, In (v, d) r -> NoDup (map fst d)).
  Proof.
    intros [ND Hobs].
    destruct built_facts as (b & Eb & HD & HP & HN & HT).
    assert (SO' : shape_ok N') by (apply edited_shape; auto; apply (eo_dists e N h EO)).
    assert (NS' : ~ In "self"%string (vars N')) by (unfold N'; rewrite edited_vars; apply NO).
    assert (RC : rep_cpds (e_cpds e) N') by apply (eo_rep e N h EO).
    assert (WF : wf_bbn b) by (apply (built_wf N' SO' (e_cpds e) RC NS' b HD HP HN HT J)).
    assert (Kv : forall v, In v (map nvar (bnodes b)) <-> In v (vars N)).
    { intros v. rewrite (built_vars N' (e_cpds e) b HP v). unfold N'. rewrite edited_vars. reflexivity. }
    assert (Kd : forall v, In v (vars N) -> domain_of b v = states_of N v).
    { intros v Hv. rewrite (built_domain' N' SO' b HD v); [apply edited_states|].
      unfold N'. rewrite edited_vars. auto. }
    assert (NS : smem "self"%string (map fst obs) = false).
    { apply smem_false. intros H. apply in_map_iff in H as ([v x] & E & H). cbn [fst] in E. subst v.
      destruct (Hobs _ _ H) as [H1 _]. destruct NO; auto. }
    destruct (bbn_query_exact sc b obs GS WF ND) as (m & Em & NDm & Hm).
    { intros v x H. destruct (Hobs v x H) as [H1 H2]. split; [apply Kv; auto|]. rewrite Kd; auto. }
    unfold engine_query. rewrite NS, Eb, Em. cbn [bind].
    set (r0 := map (fun vs : var * sdict => (fst vs, @nil (value * Qc))) (e_cpds e)).
    assert (K0 : dkeys r0 = vars N).
    { unfold r0, dkeys. rewrite map_map. cbn [fst]. destruct RC as [RC _]. unfold N' in RC. rewrite edited_vars in RC. exact RC. }
    assert (G0 : forall v, dget String.eqb r0 v = if smem v (vars N) then Some [] else None).
    { intros v. destruct (smem v (vars N)) eqn:S.
      - apply smem_In in S. rewrite <- K0 in S. destruct (dget_key_Some _ String.eqb_spec r0 v S) as (d & Ed).
        pose proof (dget_In _ String.eqb_spec _ _ _ Ed) as Hin. unfold r0 in Hin.
        apply in_map_iff in Hin as (p & [= _ <-] & _). exact Ed.
      - apply smem_false in S. apply (dget_None _ String.eqb_spec). rewrite K0. auto. }
    destruct (collect_results m r0) as (r & Er & Kr & Gr).
    { intros [v x] Hk. rewrite K0. cbn [fst]. destruct (dget_key_Some _ pair_eqb_spec m (v, x) Hk) as (q & Eq).
      rewrite Hm in Eq. destruct (in_query b (map nvar (bnodes b)) (v, x)) eqn:Q; [|discriminate].
      unfold in_query in Q. apply andb_true_iff in Q as [Q _]. apply smem_In in Q. cbn [fst] in Q. apply Kv; auto. }
    { auto. }
    exists r. split; [exact Er|]. split; [exact (eq_trans Kr K0)|].
    assert (Ans : forall v x, In v (vars N) -> answer r v x = dget pair_eqb m (v, x)).
    { intros v x Hv. unfold answer. change var with string in *. change value with label in *.
      rewrite Gr, G0. apply smem_In in Hv. rewrite Hv.
      destruct (fold_state_dict m v NDm [] (fun _ _ H => H) (NoDup_nil _)) as (_ & B).
      etransitivity; [apply B|]. change var with string in *. change value with label in *.
      destruct (dget pair_eqb m (v, x)); auto. }
    split; [|split].
    - intros v s Hv Hs. rewrite Ans, Hm by auto. unfold in_query. cbn [fst snd].
      assert (E1 : smem v (map nvar (bnodes b)) = true) by (apply smem_In, Kv; auto).
      assert (E2 : lmem s (domain_of b v) = true) by (apply lmem_In; rewrite Kd; auto).
      rewrite E1, E2. cbn [andb]. f_equal. unfold query_value, expected.
      assert (I : incl (map fst obs) (vars N')).
      { intros u Hu. apply in_map_iff in Hu as ([w x] & <- & Hin). unfold N'. rewrite edited_vars. apply (Hobs w x Hin). }
      assert (Hv' : In v (vars N')) by (unfold N'; rewrite edited_vars; auto).
      rewrite (total_and N' SO' (e_cpds e) RC NS' b HD HP WF obs v s I Hv').
      rewrite (total_observed N' SO' (e_cpds e) RC NS' b HD HP WF obs I).
      destruct obs; auto.
    - intros v s Hn. unfold answer. change var with string in *. change value with label in *.
      destruct (smem v (vars N)) eqn:S.
      + apply smem_In in S. pose proof (Ans v s S) as X. unfold answer in X.
        etransitivity; [exact X|]. rewrite Hm. unfold in_query. cbn [fst snd].
        destruct (lmem s (domain_of b v)) eqn:L; [|rewrite andb_false_r; auto].
        apply lmem_In in L. rewrite Kd in L by auto. tauto.
      + rewrite Gr, G0, S. auto.
    - intros v d Hin.
      assert (NDr : NoDup (dkeys r)).
      { change (NoDup (dkeys r)). rewrite Kr, K0. apply ok_vars; auto. }
      pose proof (In_dget _ String.eqb_spec r v d NDr Hin) as Ed.
      change var with string in *. change value with label in *. rewrite Gr, G0 in Ed.
      destruct (smem v (vars N)); [|discriminate]. injection Ed as <-.
      destruct (fold_state_dict m v NDm [] (fun _ _ H => H) (NoDup_nil _)) as (A & _). exact A.
  Qed.
End QueryTheorem.
