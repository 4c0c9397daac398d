(** * InferOps: constructing the engine, interventions, histories. *)
From Coq Require Import List Bool Arith ZArith Lia String QArith Qcanon Permutation Relations.
From Verif Require Import Base QcX Digraph BbnModel SumOver Kruskal BbnTables BbnProofs BbnQuery BbnBuild InferModel InferSpec InferProofs InferEngine.
Import ListNotations.
Local Open Scope Qc_scope.
Local Open Scope list_scope.

(** ** The network that a fitted BayesianNetwork describes (specification) *)

Definition row_of (fr : frame) (s : label) : list Qc :=
  match find (fun sr => label_eqb (fst sr) s) (combine (fr_index fr) (fr_rows fr)) with
  | Some sr => snd sr
  | None => []
  end.

Fixpoint labels_eqb (a b : list label) : bool :=
  match a, b with
  | [], [] => true
  | x :: a', y :: b' => label_eqb x y && labels_eqb a' b'
  | _, _ => false
  end.

(** The entry of a CPD data frame in the row of state [s] and the column of parent states [cs]. *)
Definition entry (fr : frame) (s : label) (cs : list label) : Qc :=
  match find (fun cp => labels_eqb (fst cp) cs) (combine (fr_columns fr) (row_of fr s)) with
  | Some cp => snd cp
  | None => 0
  end.

Definition net_of (bn : bnet) : net :=
  map (fun vf => (fst vf, mkCpd (fr_index (snd vf)) (fr_names (snd vf)) (entry (snd vf)))) (bn_cpds bn).

(** The frames are rectangular and have one column per combination of parent states. *)
Record frames_ok (bn : bnet) : Prop := {
  fo_rows : forall v fr, In (v, fr) (bn_cpds bn) -> List.length (fr_rows fr) = List.length (fr_index fr);
  fo_cols : forall v fr row, In (v, fr) (bn_cpds bn) -> In row (fr_rows fr) ->
              List.length row = List.length (fr_columns fr);
  fo_nodup : forall v fr, In (v, fr) (bn_cpds bn) -> NoDup (fr_columns fr);
  fo_all : forall v fr cs, In (v, fr) (bn_cpds bn) -> In cs (fr_columns fr) <->
             Forall2 (fun p x => In x (states_of (net_of bn) p)) (fr_names fr) cs;
  fo_nodes : forall v, In v (bn_nodes bn) <-> In v (map fst (bn_cpds bn))
}.

Definition good_bn (bn : bnet) : Prop :=
  frames_ok bn /\ shape_ok (net_of bn) /\ columns_sum_1 (net_of bn) /\
  names_ok (net_of bn) /\ joined (net_of bn).

(** ** Dictionaries from comprehensions *)
Lemma dict_of_NoDup {K V} (eqb : K -> K -> bool) (sp : forall x y, reflect (x = y) (eqb x y)) (l : list (K * V)) :
  NoDup (map fst l) -> dict_of eqb l = l.
Proof.
  unfold dict_of. intros ND.
  assert (G : forall (l d : list (K * V)), NoDup (map fst d ++ map fst l) ->
    fold_left (fun d kv => dset eqb d (fst kv) (snd kv)) l d = d ++ l).
  { clear l ND. induction l as [|[k v] l IH]; intros d H; cbn [fold_left fst snd].
    - rewrite app_nil_r; auto.
    - assert (F : dset eqb d k v = d ++ [(k, v)]).
      { cbn [map fst] in H. apply NoDup_remove_2 in H.
        assert (Nk : ~ In k (map fst d)) by (intros X; apply H, in_app_iff; auto).
        clear -Nk sp. induction d as [|[a b] d IH]; auto. cbn [dset].
        destruct (sp k a) as [->|Ne]; [exfalso; apply Nk; left; auto|].
        cbn [app]. f_equal. apply IH. intros X. apply Nk. right; auto. }
      rewrite F, IH.
      + rewrite <- app_assoc. auto.
      + rewrite map_app, <- app_assoc. exact H. }
  apply (G l []). exact ND.
Qed.

Lemma labels_eqb_spec a b : reflect (a = b) (labels_eqb a b).
Proof.
  revert b. induction a as [|x a IH]; intros [|y b]; cbn [labels_eqb]; try (constructor; congruence).
  destruct (label_eqb_spec x y) as [->|Ne]; cbn [andb]; [|constructor; congruence].
  destruct (IH b) as [->|Ne]; constructor; congruence.
Qed.

Lemma combine_map_fst {A B} (l : list A) (m : list B) : List.length m = List.length l -> map fst (combine l m) = l.
Proof.
  revert m. induction l as [|x l IH]; intros [|y m] E; cbn; try discriminate; auto. f_equal. apply IH. cbn in E. lia.
Qed.

Lemma combine_snd_In {A B} (l : list A) (m : list B) x y : In (x, y) (combine l m) -> In y m.
Proof. apply in_combine_r. Qed.

Lemma combine_inj {A B} (l : list A) (a b : list B) : List.length a = List.length l -> List.length b = List.length l ->
  combine l a = combine l b -> a = b.
Proof.
  revert a b. induction l as [|x l IH]; intros [|y a] [|z b] Ea Eb E; cbn in *; try discriminate; auto.
  injection E as -> E. f_equal. apply IH; auto.
Qed.

Lemma Forall2_length {A B} (R : A -> B -> Prop) l m : Forall2 R l m -> List.length l = List.length m.
Proof. induction 1; cbn; congruence. Qed.

Section New.
  Variable bn : bnet.
  Hypothesis FO : frames_ok bn.
  Let N := net_of bn.
  Hypothesis SO : shape_ok N.

  Lemma net_of_In v c : In (v, c) N <-> exists fr, In (v, fr) (bn_cpds bn) /\ c = mkCpd (fr_index fr) (fr_names fr) (entry fr).
  Proof.
    unfold N, net_of. rewrite in_map_iff. split.
    - intros ([u fr] & [= <- <-] & H). eauto.
    - intros (fr & H & ->). exists (v, fr). auto.
  Qed.

  Lemma net_of_vars : vars N = map fst (bn_cpds bn).
  Proof. unfold N, net_of, vars. rewrite map_map. apply map_ext. auto. Qed.

  Lemma cond_dict_eq v fr row : In (v, fr) (bn_cpds bn) -> In row (fr_rows fr) ->
    cond_dict fr row = map (fun cp => (combine (fr_names fr) (fst cp), snd cp)) (combine (fr_columns fr) row).
  Proof.
    intros Hf Hr. unfold cond_dict. apply (dict_of_NoDup _ key_eqb_spec). rewrite map_map. cbn [fst].
    rewrite <- (map_map fst (combine (fr_names fr))).
    rewrite combine_map_fst by (apply (fo_cols bn FO v fr row Hf Hr)).
    apply NoDup_map_in; [apply (fo_nodup bn FO v fr Hf)|].
    intros a c Ha Hc E. apply (combine_inj (fr_names fr)); auto.
    - apply (fo_all bn FO v fr a Hf) in Ha. symmetry. eapply Forall2_length; eauto.
    - apply (fo_all bn FO v fr c Hf) in Hc. symmetry. eapply Forall2_length; eauto.
  Qed.

  Lemma state_dict_eq v fr : In (v, fr) (bn_cpds bn) ->
    state_dict fr = map (fun sr => (fst sr, cond_dict fr (snd sr))) (combine (fr_index fr) (fr_rows fr)).
  Proof.
    intros Hf. unfold state_dict. apply (dict_of_NoDup _ label_eqb_spec). rewrite map_map. cbn [fst].
    rewrite combine_map_fst by (apply (fo_rows bn FO v fr Hf)).
    assert (Hc : In (v, mkCpd (fr_index fr) (fr_names fr) (entry fr)) N) by (apply net_of_In; eauto).
    apply (ok_states N SO v _ Hc).
  Qed.

  Lemma dget_find {V} (l : list (label * V)) s : dget label_eqb l s =
    match find (fun sr => label_eqb (fst sr) s) l with Some sr => Some (snd sr) | None => None end.
  Proof.
    induction l as [|[u x] l IH]; auto. cbn [dget find fst].
    destruct (label_eqb_spec s u) as [->|Ne].
    - destruct (label_eqb_spec u u); [auto|congruence].
    - destruct (label_eqb_spec u s); [congruence|auto].
  Qed.

  Lemma new_rep_entry v fr : In (v, fr) (bn_cpds bn) ->
    rep_entry N (state_dict fr) (mkCpd (fr_index fr) (fr_names fr) (entry fr)).
  Proof.
    intros Hf. pose proof (state_dict_eq v fr Hf) as Es.
    assert (Hc : In (v, mkCpd (fr_index fr) (fr_names fr) (entry fr)) N) by (apply net_of_In; eauto).
    assert (Ek : dkeys (state_dict fr) = fr_index fr).
    { rewrite Es. unfold dkeys. rewrite map_map. cbn [fst]. apply combine_map_fst. apply (fo_rows bn FO v fr Hf). }
    constructor; cbn [states parents prob].
    - rewrite Ek. apply (ok_states N SO v _ Hc).
    - intros s. rewrite Ek. reflexivity.
    - intros s cd Hin. rewrite Es in Hin. apply in_map_iff in Hin as ([s' row] & [= <- <-] & Hin).
      apply in_combine_r in Hin. cbn [snd]. rewrite (cond_dict_eq v fr row Hf Hin).
      assert (L : List.length row = List.length (fr_columns fr)) by (apply (fo_cols bn FO v fr row Hf Hin)).
      split.
      + (* there is at least one column *)
        assert (Ne : fr_columns fr <> []).
        { assert (X : exists cs, Forall2 (fun p x => In x (states_of N p)) (fr_names fr) cs).
          { assert (Q : forall p, In p (fr_names fr) -> states_of N p <> []).
            { intros p Hp. destruct (ok_parents N SO v _ Hc) as [_ Ip]. cbn [parents] in Ip.
              apply Ip in Hp. apply in_map_iff in Hp as ([u c] & <- & Hu). cbn [fst].
              rewrite (states_of_In N u c (ok_vars N SO) Hu). apply (ok_states N SO u c Hu). }
            clear -Q. induction (fr_names fr) as [|p l IH]; [exists []; constructor|].
            destruct IH as (cs & Hcs); [intros q Hq; apply Q; right; auto|].
            specialize (Q p (or_introl eq_refl)). destruct (states_of N p) as [|x xs] eqn:E; [congruence|].
            exists (x :: cs). constructor; auto. rewrite E. left; auto. }
          destruct X as (cs & X). apply (fo_all bn FO v fr cs Hf) in X. intros E. rewrite E in X. destruct X. }
        destruct (fr_columns fr) as [|c cols]; [congruence|]. destruct row; [discriminate|]. discriminate.
      + intros k Hk. unfold dkeys in Hk. rewrite map_map in Hk. cbn [fst] in Hk.
        apply in_map_iff in Hk as ([c q] & <- & Hk). cbn [fst].
        apply in_combine_l in Hk. apply combine_map_fst.
        apply (fo_all bn FO v fr c Hf) in Hk. symmetry. eapply Forall2_length; eauto.
    - intros s ps Hs Hp.
      destruct (dget label_eqb (combine (fr_index fr) (fr_rows fr)) s) as [row|] eqn:Er.
      2:{ apply (dget_None _ label_eqb_spec) in Er. exfalso. apply Er. unfold dkeys.
          rewrite combine_map_fst; auto. apply (fo_rows bn FO v fr Hf). }
      assert (Rw : row_of fr s = row).
      { unfold row_of. rewrite dget_find in Er.
        destruct (find (fun sr => label_eqb (fst sr) s) (combine (fr_index fr) (fr_rows fr))); congruence. }
      assert (Hr : In row (fr_rows fr)).
      { apply (dget_In _ label_eqb_spec) in Er. eapply in_combine_r; eauto. }
      exists (cond_dict fr row). split.
      + rewrite Es. clear -Er. induction (combine (fr_index fr) (fr_rows fr)) as [|[u r] l IH]; [discriminate|].
        cbn [map dget fst snd] in *. destruct (label_eqb s u); auto. congruence.
      + rewrite (cond_dict_eq v fr row Hf Hr). unfold entry. rewrite Rw.
        assert (L : List.length row = List.length (fr_columns fr)) by (apply (fo_cols bn FO v fr row Hf Hr)).
        assert (Hin : In ps (map fst (combine (fr_columns fr) row))).
        { rewrite combine_map_fst by auto. apply (fo_all bn FO v fr ps Hf). exact Hp. }
        assert (Lc : forall c, In c (map fst (combine (fr_columns fr) row)) -> List.length c = List.length (fr_names fr)).
        { intros c Hc'. rewrite combine_map_fst in Hc' by auto. apply (fo_all bn FO v fr c Hf) in Hc'.
          symmetry. eapply Forall2_length; eauto. }
        assert (Lp : List.length ps = List.length (fr_names fr)) by (symmetry; eapply Forall2_length; exact Hp).
        clear -Hin Lc Lp. induction (combine (fr_columns fr) row) as [|[c q] l IH]; [destruct Hin|].
        cbn [map dget find fst snd] in *.
        destruct (key_eqb_spec (combine (fr_names fr) ps) (combine (fr_names fr) c)) as [E|Ne].
        * apply combine_inj in E; auto. subst c. destruct (labels_eqb_spec ps ps); [reflexivity|congruence].
          all: apply Lc; left; auto.
        * destruct (labels_eqb_spec c ps) as [->|]; [congruence|].
          apply IH.
          { destruct Hin as [->|?]; [congruence|auto]. }
          { intros x Hx. apply Lc. right; auto. }
  Qed.

  Lemma new_rep : rep_cpds (create_cpds_dict (bn_cpds bn)) N.
  Proof.
    assert (Ek : dkeys (create_cpds_dict (bn_cpds bn)) = vars N).
    { rewrite net_of_vars. unfold create_cpds_dict, dkeys. rewrite map_map. cbn [fst]. apply map_ext. auto. }
    split; auto. intros v c H. apply net_of_In in H as (fr & Hf & ->). exists (state_dict fr). split.
    - apply (In_dget _ String.eqb_spec).
      + rewrite Ek. apply ok_vars; auto.
      + unfold create_cpds_dict. apply in_map_iff. exists (v, fr). auto.
    - apply (new_rep_entry v); auto.
  Qed.
End New.

(** ** Starting over from a dictionary: _generate_bbn *)
Definition no_do : string -> option dist := fun _ => None.

Lemma edited_none N : edited no_do N = N.
Proof. unfold edited, no_do. rewrite <- map_id. apply map_ext. intros [v c]. auto. Qed.

Lemma generate_ok e N h : shape_ok N -> names_ok N -> dists_ok N h ->
  rep_cpds (e_cpds e) (edited h N) -> rep_cpds (e_orig e) N ->
  (forall v c, In (v, c) N -> dget String.eqb (e_doms e) v = Some (states c)) ->
  exists e', generate_bbn e = (e', Ok tt) /\ eng_ok e' N h /\
    e_cpds e' = e_cpds e /\ e_orig e' = e_orig e /\ e_doms e' = e_doms e.
Proof.
  intros SO NO DO RC RO HD. unfold generate_bbn.
  assert (SO' : shape_ok (edited h N)) by (apply edited_shape; auto).
  rewrite (create_node_functions_ok (edited h N) SO' (e_cpds e) RC).
  destruct (build_engine_ok (edited h N) SO' (e_cpds e)) with (doms := e_doms e) as (b & E & D & P & HN & T).
  - intros v Hv. rewrite edited_vars in Hv. apply NO; auto.
  - rewrite E. eexists. split; [reflexivity|]. cbn. split; [|auto].
    constructor; cbn; auto.
Qed.

Theorem engine_new_ok bn : frames_ok bn -> shape_ok (net_of bn) -> names_ok (net_of bn) ->
  exists e, engine_new bn = Ok e /\ eng_ok e (net_of bn) no_do /\
    e_cpds e = create_cpds_dict (bn_cpds bn) /\ e_orig e = create_cpds_dict (bn_cpds bn).
Proof.
  intros FO SO NO. unfold engine_new.
  replace (forallb name_matches (bn_nodes bn)) with true.
  2:{ symmetry. apply forallb_forall. intros v Hv. apply (fo_nodes bn FO) in Hv.
      rewrite <- net_of_vars in Hv. destruct NO as [I _]. specialize (I v Hv).
      clear -I. destruct v as [|c s]; [discriminate|]. cbn [is_identifier name_matches] in *.
      apply andb_true_iff in I as [I1 I2]. rewrite I1, orb_true_r. cbn [andb]. clear I1.
      induction s as [|d s IH]; auto. cbn [word_chars word_tail] in *. apply andb_true_iff in I2 as [I1 I2].
      rewrite I1. auto. }
  destruct (bn_cpds bn) as [|vf fs] eqn:E.
  { exfalso. apply (ok_ne _ SO). unfold net_of. rewrite E. auto. }
  rewrite <- E.
  destruct (generate_ok (mkEng (create_cpds_dict (bn_cpds bn)) (create_cpds_dict (bn_cpds bn))
     (map (fun vf => (fst vf, fr_index (snd vf))) (bn_cpds bn)) []
     (mkBbn [] (map (fun vf => (fst vf, fr_index (snd vf))) (bn_cpds bn)))) (net_of bn) no_do)
    as (e' & Eg & EO & E1 & E2 & _); auto.
  - intros v c d H Hd. discriminate.
  - rewrite edited_none. apply new_rep; auto.
  - apply new_rep; auto.
  - cbn. intros v c H. apply net_of_In in H as (fr & Hf & ->). cbn [states].
    apply (In_dget _ String.eqb_spec).
    + unfold dkeys. rewrite map_map. cbn [fst].
      pose proof (ok_vars _ SO) as ND. rewrite net_of_vars in ND. exact ND.
    + apply in_map_iff. exists (v, fr). auto.
  - cbn in Eg. rewrite Eg. exists e'. auto.
Qed.

(** ** Interventions *)

(** Replace the intervention on one variable. *)
Definition set_do (h : string -> option dist) (v : string) (d : option dist) : string -> option dist :=
  fun u => if String.eqb u v then d else h u.

Lemma edited_truncated h N v d : truncated (edited h N) v d = edited (set_do h v (Some d)) N.
Proof.
  unfold truncated, edited, set_do. rewrite map_map. apply map_ext. intros [u c]. cbn [fst].
  destruct (h u) as [d'|] eqn:Hu; cbn [fst snd]; destruct (String.eqb_spec u v) as [->|Ne]; auto; rewrite Hu; auto.
Qed.

Lemma rep_entry_ext N N' sd c : (forall p, states_of N p = states_of N' p) -> rep_entry N sd c -> rep_entry N' sd c.
Proof.
  intros E [R1 R2 R3 R4]. constructor; auto. intros s ps Hs Hp. apply R4; auto.
  unfold ps_ok in *. clear -E Hp. induction Hp; constructor; auto. rewrite E; auto.
Qed.

Lemma rep_set N h cp v c sd d : NoDup (vars N) -> In (v, c) N -> rep_cpds cp (edited h N) ->
  rep_entry N sd (match d with Some q => fixed c q | None => c end) ->
  rep_cpds (dset String.eqb cp v sd) (edited (set_do h v d) N).
Proof.
  intros ND Hc [K R] RE. split.
  - rewrite edited_vars in *. rewrite (dkeys_dset _ String.eqb_spec).
    replace (dhas String.eqb cp v) with true; auto. symmetry. apply (memb_In _ String.eqb_spec).
    change (In v (dkeys cp)). rewrite K. apply in_map_iff. exists (v, c); auto.
  - intros u c' H. apply edited_In in H as (c0 & H & ->). rewrite (dget_dset _ String.eqb_spec).
    unfold set_do at 2. destruct (String.eqb_spec u v) as [->|Ne].
    + assert (c0 = c).
      { apply (In_dget _ String.eqb_spec N v c0) in H; auto. apply (In_dget _ String.eqb_spec N v c) in Hc; auto. congruence. }
      subst c0. exists sd. split; auto. apply (rep_entry_ext N); auto. intros p. rewrite edited_states. auto.
    + destruct (R u (match h u with Some d => fixed c0 d | None => c0 end)) as (sd' & E & RE').
      { apply edited_In. exists c0. auto. }
      exists sd'. split; auto. apply (rep_entry_ext (edited h N)); auto. intros p. rewrite !edited_states. auto.
Qed.

Lemma qsum_Qsum l : qsum l = Qsum (fun x => x) l.
Proof.
  unfold qsum. assert (G : forall a, fold_left Qcplus l a = a + Qsum (fun x => x) l).
  { induction l as [|x l IH]; intros a; cbn [fold_left]; [rewrite Qsum_nil; ring|].
    rewrite IH, Qsum_cons. ring. }
  rewrite G. ring.
Qed.

Lemma Qcltb_lt x y : Qcltb x y = true <-> x < y.
Proof.
  unfold Qcltb. destruct (x ?= y) eqn:E.
  - apply Qceq_alt in E. subst. split; [discriminate|]. intros H. exfalso. apply (Qclt_not_eq _ _ H). auto.
  - split; auto.
  - apply Qcgt_alt in E. split; [discriminate|]. intros H. exfalso.
    apply (Qclt_not_le _ _ H). apply Qclt_le_weak. auto.
Qed.

Lemma same_set_true a b : same_set a b = true <-> (forall s, In s a <-> In s b).
Proof.
  unfold same_set. rewrite andb_true_iff, !forallb_forall. split.
  - intros [H1 H2] s. split; intros H; apply lmem_In; auto.
  - intros H. split; intros s Hs; apply lmem_In; apply H; auto.
Qed.

Definition accepts_dist (sts : list label) (d : dist) : Prop :=
  Qsum snd d = 1 /\ (forall s p, In (s, p) d -> 0 <= p <= 1) /\ (forall s, In s (map fst d) <-> In s sts).

Lemma do_spec e N h v c d : eng_ok e N h -> In (v, c) N ->
  (accepts_dist (states c) d /\ exists e', do_ e v d = (e', Ok tt) /\
     e_cpds e' = dset String.eqb (e_cpds e) v (map (fun sp => (fst sp, [([], snd sp)])) d) /\
     e_orig e' = e_orig e /\ e_doms e' = e_doms e) \/
  (~ accepts_dist (states c) d /\ do_ e v d = (e, Err ValueError)).
Proof.
  intros EO Hc. unfold do_, accepts_dist.
  rewrite qsum_Qsum, Qsum_map.
  destruct (Qc_eq_bool_spec (Qsum (fun x : label * Qc => snd x) d) 1) as [E1|N1]; cbn [negb].
  2:{ right. split; auto. intros (H & _). apply N1. exact H. }
  destruct (existsb (fun p => Qcltb 1 p) (map snd d) || existsb (fun p => Qcltb p 0) (map snd d))%bool eqn:E2.
  - right. split; auto. intros (_ & B & _). apply orb_true_iff in E2 as [E2|E2].
    + apply existsb_exists in E2 as (p & Hp & L). apply in_map_iff in Hp as ([s q] & <- & Hin). cbn [snd] in L.
      apply Qcltb_lt in L. destruct (B s q Hin) as [_ B2]. apply (Qclt_not_le _ _ L). auto.
    + apply existsb_exists in E2 as (p & Hp & L). apply in_map_iff in Hp as ([s q] & <- & Hin). cbn [snd] in L.
      apply Qcltb_lt in L. destruct (B s q Hin) as [B1 _]. apply (Qclt_not_le _ _ L). auto.
  - assert (B : forall s p, In (s, p) d -> 0 <= p <= 1).
    { intros s p Hin. apply orb_false_iff in E2 as [Ea Eb].
      assert (Hp : In p (map snd d)) by (apply in_map_iff; exists (s, p); auto). split.
      - apply Qcnot_lt_le. intros L. apply Qcltb_lt in L.
        assert (X : existsb (fun p => Qcltb p 0) (map snd d) = true) by (apply existsb_exists; eauto). congruence.
      - apply Qcnot_lt_le. intros L. apply Qcltb_lt in L.
        assert (X : existsb (fun p => Qcltb 1 p) (map snd d) = true) by (apply existsb_exists; eauto). congruence. }
    destruct (eo_orig e N h EO) as [_ R]. destruct (R v c Hc) as (sd & Es & RE). rewrite Es.
    destruct (same_set (dkeys d) (dkeys sd)) eqn:E3.
    + left. split.
      * split; auto. split; auto. intros s. rewrite <- (re_keys N sd c RE s). apply same_set_true. exact E3.
      * eexists. split; [reflexivity|]. auto.
    + right. split; auto. intros (_ & _ & K). assert (X : same_set (dkeys d) (dkeys sd) = true); [|congruence].
      apply same_set_true. intros s. rewrite (re_keys N sd c RE s). apply K.
Qed.

Lemma do_rep_entry N c d : dist_on (states c) d ->
  rep_entry N (map (fun sp => (fst sp, [([], snd sp)])) d) (fixed c d).
Proof.
  intros (ND & K & B & S). constructor; cbn [fixed states parents prob].
  - unfold dkeys. rewrite map_map. cbn [fst]. exact ND.
  - intros s. unfold dkeys. rewrite map_map. cbn [fst]. apply K.
  - intros s cd H. apply in_map_iff in H as ([u p] & [= <- <-] & H). split; [discriminate|].
    intros k [<-|[]]. auto.
  - intros s ps Hs Hp. inversion Hp; subst. apply K in Hs. apply in_map_iff in Hs as ([u p] & <- & Hin). cbn [fst].
    exists [([], p)]. split.
    + apply (In_dget _ label_eqb_spec).
      * unfold dkeys. rewrite map_map. exact ND.
      * apply in_map_iff. exists (u, p). auto.
    + cbn [combine dget]. rewrite (weight_in_In d u p ND Hin).
      destruct (key_eqb_spec [] []); [auto|congruence].
Qed.

(** [v] is a parent of some variable. *)
Definition is_parent (N : net) (v : string) : Prop := exists u, In (v, u) (parent_arrows N).

Lemma is_parent_funs e N h v : shape_ok N -> eng_ok e N h ->
  existsb (fun vf => smem v (tl (fargs (snd vf)))) (e_funs e) = true <-> is_parent (edited h N) v.
Proof.
  intros SO EO. rewrite (eo_funs e N h EO), existsb_exists. unfold is_parent, parent_arrows. split.
  - intros ([u f] & Hin & S). apply net_factors_In in Hin as (c & Hc & ->). cbn [snd fac fargs tl] in S.
    apply smem_In in S. exists u. apply in_flat_map. exists (u, c). split; auto. cbn [fst snd].
    apply in_map_iff. exists v. auto.
  - intros (u & H). apply in_flat_map in H as ([w c] & Hc & H). cbn [fst snd] in H.
    apply in_map_iff in H as (p & [= <- <-] & Hp). exists (w, fac (e_cpds e) w c). split.
    + apply net_factors_In. exists c. auto.
    + cbn [snd fac fargs tl]. apply smem_In. auto.
Qed.

Lemma is_parent_var N h v : shape_ok N -> is_parent (edited h N) v -> exists c, In (v, c) N.
Proof.
  intros SO (u & H). unfold parent_arrows in H. apply in_flat_map in H as ([w c'] & Hc & H). cbn [fst snd] in H.
  apply in_map_iff in H as (p & [= <- <-] & Hp). apply edited_In in Hc as (c & Hc & ->).
  assert (Hv : In p (vars N)).
  { destruct (h w); cbn [fixed parents] in Hp; [destruct Hp|]. apply (ok_parents N SO w c Hc); auto. }
  apply in_map_iff in Hv as ([q c0] & <- & Hq). eauto.
Qed.

(** What do_intervention asks for. *)
Definition dist_arg (N : net) (v : string) (arg : ivarg) (d : dist) : Prop :=
  match arg with
  | IvDict d' => d = d'
  | IvInt z => NoDup (map fst d) /\ (forall s, In s (map fst d) <-> In s (states_of N v)) /\
               (forall s p, In (s, p) d -> p = if label_eqb s (LInt z) then 1 else 0)
  | IvOther => False
  end.

Definition arg_dict (arg : ivarg) : Prop :=
  match arg with IvDict d => NoDup (map fst d) | _ => True end.

Lemma do_go e N h v c d : shape_ok N -> names_ok N -> eng_ok e N h -> In (v, c) N ->
  NoDup (map fst d) -> accepts_dist (states c) d ->
  exists e', (match do_ e v d with (e', Ok _) => generate_bbn e' | r => r end) = (e', Ok tt) /\
     eng_ok e' N (set_do h v (Some d)) /\ e_orig e' = e_orig e /\
     e_cpds e' = dset String.eqb (e_cpds e) v (map (fun sp => (fst sp, [([], snd sp)])) d).
Proof.
  intros SO NO EO Hc ND A.
  destruct (do_spec e N h v c d EO Hc) as [(_ & e1 & E & E1 & E2 & E3)|[Na _]]; [|tauto].
  rewrite E.
  assert (DO : dist_on (states c) d) by (destruct A as (S & B & K); repeat split; auto; apply K || apply (B s p); auto).
  destruct (generate_ok e1 N (set_do h v (Some d)) SO NO) as (e' & Eg & EO' & F1 & F2 & F3).
  - intros u c' d' Hu Hd. unfold set_do in Hd. destruct (String.eqb_spec u v) as [->|Ne].
    + injection Hd as <-. assert (c' = c).
      { pose proof (ok_vars N SO) as NDv. apply (In_dget _ String.eqb_spec N v c') in Hu; auto.
        apply (In_dget _ String.eqb_spec N v c) in Hc; auto. congruence. }
      subst. auto.
    + apply (eo_dists e N h EO u c' d' Hu Hd).
  - rewrite E1. apply (rep_set N h _ v c); auto.
    + apply ok_vars; auto.
    + apply (eo_rep e N h EO).
    + apply do_rep_entry; auto.
  - rewrite E2. apply (eo_orig e N h EO).
  - rewrite E3. apply (eo_doms e N h EO).
  - exists e'. split; auto. split; auto. split; congruence.
Qed.

Lemma do_stop e N h v c d : eng_ok e N h -> In (v, c) N -> ~ accepts_dist (states c) d ->
  (match do_ e v d with (e', Ok _) => generate_bbn e' | r => r end) = (e, Err ValueError).
Proof.
  intros EO Hc Na. destruct (do_spec e N h v c d EO Hc) as [(A & _)|[_ E]]; [tauto|]. rewrite E. auto.
Qed.

Lemma point_keys (l : list label) z : map fst (point l z) = l.
Proof. unfold point. rewrite map_map. cbn [fst]. apply map_id. Qed.

Lemma point_sum l z : NoDup l -> Qsum snd (point l z) = if lmem (LInt z) l then 1 else 0.
Proof.
  intros ND. unfold point. rewrite Qsum_map. cbn [snd].
  destruct (lmem (LInt z) l) eqn:E.
  - apply lmem_In in E. rewrite (Qsum_single _ l (LInt z)); auto.
    + destruct (label_eqb_spec (LInt z) (LInt z)); [auto|congruence].
    + intros y _ Ny. destruct (label_eqb_spec y (LInt z)); [congruence|auto].
  - apply lmem_false in E. apply Qsum_all_zero. intros x Hx.
    destruct (label_eqb_spec x (LInt z)) as [->|]; [tauto|auto].
Qed.

Lemma point_accepts l sts z : NoDup l -> (forall s, In s l <-> In s sts) ->
  accepts_dist sts (point l z) <-> In (LInt z) sts.
Proof.
  intros ND K. unfold accepts_dist. rewrite (point_sum l z ND), point_keys. split.
  - intros (S & _). destruct (lmem (LInt z) l) eqn:E; [|discriminate]. apply lmem_In in E. apply K; auto.
  - intros H. apply K in H. apply lmem_In in H. rewrite H. split; auto. split; auto.
    intros s p Hin. unfold point in Hin. apply in_map_iff in Hin as (y & [= -> <-] & _).
    destruct (label_eqb s (LInt z)); split; try apply Qcle_refl'; discriminate.
Qed.

Definition do_accepts (N : net) (v : string) (arg : ivarg) : Prop :=
  match arg with
  | IvDict d => accepts_dist (states_of N v) d
  | IvInt z => In (LInt z) (states_of N v)
  | IvOther => False
  end.

Theorem do_intervention_spec e N h v arg : shape_ok N -> names_ok N -> eng_ok e N h -> arg_dict arg ->
  (is_parent (edited h N) v /\ do_accepts N v arg /\
     exists e' d, do_intervention e v arg = (e', Ok tt) /\ dist_arg N v arg d /\
       eng_ok e' N (set_do h v (Some d)) /\ e_orig e' = e_orig e /\
       e_cpds e' = dset String.eqb (e_cpds e) v (map (fun sp => (fst sp, [([], snd sp)])) d)) \/
  (~ (is_parent (edited h N) v /\ do_accepts N v arg) /\
     exists x, do_intervention e v arg = (e, Err x)).
Proof.
  intros SO NO EO AD. unfold do_intervention.
  pose proof (is_parent_funs e N h v SO EO) as IP.
  destruct (existsb (fun vf => smem v (tl (fargs (snd vf)))) (e_funs e)) eqn:E; cbn [negb].
  2:{ right. split; [|eauto]. intros [H _]. apply IP in H. discriminate. }
  assert (P : is_parent (edited h N) v) by (apply IP; auto).
  destruct (is_parent_var N h v SO P) as (c & Hc).
  assert (Es : states_of N v = states c) by (apply states_of_In; auto; apply ok_vars; auto).
  destruct arg as [z|d|]; cbn [do_accepts].
  - assert (Hc' : In (v, match h v with Some d => fixed c d | None => c end) (edited h N)) by (apply edited_In; eauto).
    destruct (eo_rep e N h EO) as [_ R]. destruct (R v _ Hc') as (sd & Esd & RE). rewrite Esd.
    assert (NDs : NoDup (dkeys sd)) by apply (re_nodup _ _ _ RE).
    assert (K : forall s, In s (dkeys sd) <-> In s (states c)).
    { intros s. rewrite (re_keys _ _ _ RE s). destruct (h v); reflexivity. }
    fold (point (dkeys sd) z).
    destruct (lmem (LInt z) (states c)) eqn:L.
    + apply lmem_In in L. left. split; auto. rewrite Es. split; auto.
      destruct (do_go e N h v c (point (dkeys sd) z) SO NO EO Hc) as (e' & Eg & EO' & E2 & E3).
      * rewrite point_keys. auto.
      * apply point_accepts; auto.
      * exists e', (point (dkeys sd) z). split; auto. split; [|auto].
        cbn [dist_arg]. rewrite point_keys. split; auto. rewrite Es. split; auto.
        intros s p Hin. unfold point in Hin. apply in_map_iff in Hin as (y & [= -> <-] & _). auto.
    + apply lmem_false in L. right. split; [rewrite Es; tauto|].
      exists ValueError. apply (do_stop e N h v c); auto. rewrite point_accepts; auto.
  - destruct (do_spec e N h v c d EO Hc) as [(A & _)|[Na _]].
    + left. split; auto. rewrite Es. split; auto.
      destruct (do_go e N h v c d SO NO EO Hc AD A) as (e' & Eg & EO' & E2 & E3).
      exists e', d. split; auto. split; [reflexivity|auto].
    + right. rewrite Es. split; [tauto|]. exists ValueError. apply (do_stop e N h v c); auto.
  - right. split; [tauto|eauto].
Qed.

(** ** reset_do *)
Theorem reset_do_spec e N h v : shape_ok N -> names_ok N -> eng_ok e N h ->
  (In v (vars N) /\ exists e' sd, reset_do e v = (e', Ok tt) /\ eng_ok e' N (set_do h v None) /\
     e_orig e' = e_orig e /\ dget String.eqb (e_orig e) v = Some sd /\
     e_cpds e' = dset String.eqb (e_cpds e) v sd) \/
  (~ In v (vars N) /\ reset_do e v = (e, Err KeyError)).
Proof.
  intros SO NO EO. unfold reset_do. destruct (eo_orig e N h EO) as [K R].
  destruct (in_dec String.string_dec v (vars N)) as [Hv|Nv].
  - left. split; auto. apply in_map_iff in Hv as ([u c] & <- & Hc). cbn [fst].
    destruct (R u c Hc) as (sd & Es & RE). rewrite Es.
    destruct (generate_ok (mkEng (dset String.eqb (e_cpds e) u sd) (e_orig e) (e_doms e) (e_funs e) (e_bbn e))
               N (set_do h u None) SO NO) as (e' & Eg & EO' & F1 & F2 & F3).
    + intros w c' d' Hw Hd. unfold set_do in Hd. destruct (String.eqb w u); [discriminate|].
      apply (eo_dists e N h EO w c' d' Hw Hd).
    + cbn [e_cpds]. apply (rep_set N h _ u c); auto.
      * apply ok_vars; auto.
      * apply (eo_rep e N h EO).
    + cbn [e_orig]. apply (eo_orig e N h EO).
    + cbn [e_doms]. apply (eo_doms e N h EO).
    + cbn in F1, F2. exists e', sd. auto.
  - right. split; auto. replace (dget String.eqb (e_orig e) v) with (@None sdict); auto.
    symmetry. apply (dget_None _ String.eqb_spec). rewrite K. auto.
Qed.

(** ** Histories *)

(** A log of calls with their success, newest first. *)
Definition log := list (iop * bool).

Fixpoint irun_log (e : eng) (ops : list iop) (past : log) : eng * log :=
  match ops with
  | [] => (e, past)
  | o :: rest =>
      let r := istep e o in
      irun_log (fst r) rest ((o, match snd r with Ok _ => true | Err _ => false end) :: past)
  end.

Lemma irun_log_fst e ops past : fst (irun_log e ops past) = irun e ops.
Proof. revert e past. induction ops as [|o ops IH]; intros e past; cbn; auto. Qed.

(** The intervention in force on [v]: that of the last successful do_intervention on [v], unless a
    successful reset_do on [v] came later. *)
Fixpoint in_force (past : log) (v : string) : option ivarg :=
  match past with
  | [] => None
  | (o, ok) :: older =>
      match o with
      | OpDo u a => if (ok && String.eqb u v)%bool then Some a else in_force older v
      | OpReset u => if (ok && String.eqb u v)%bool then None else in_force older v
      | OpQuery _ => in_force older v
      end
  end.

Definition op_ok (o : iop) : Prop := match o with OpDo _ a => arg_dict a | _ => True end.

(** [h] describes what is in force, and the stored dictionaries are literally the original one or
    the one made from the argument. *)
Definition force_ok (N : net) (e : eng) (past : log) (h : string -> option dist) : Prop :=
  forall v, match in_force past v with
            | None => h v = None /\ dget String.eqb (e_cpds e) v = dget String.eqb (e_orig e) v
            | Some a => exists d, h v = Some d /\ dist_arg N v a d /\
                dget String.eqb (e_cpds e) v = Some (map (fun sp => (fst sp, [([], snd sp)])) d)
            end.

Theorem history N : shape_ok N -> names_ok N -> forall ops e past h, eng_ok e N h -> force_ok N e past h ->
  Forall op_ok ops ->
  exists h', eng_ok (fst (irun_log e ops past)) N h' /\
    force_ok N (fst (irun_log e ops past)) (snd (irun_log e ops past)) h' /\
    e_orig (fst (irun_log e ops past)) = e_orig e.
Proof.
  intros SO NO. induction ops as [|o ops IH]; intros e past h EO FO FA; cbn [irun_log].
  - exists h. auto.
  - inversion FA as [|? ? Ho FA']; subst. destruct o as [v a|v|obs]; cbn [istep].
    + destruct (do_intervention_spec e N h v a SO NO EO Ho) as [(P & A & e' & d & E & DA & EO' & Eo & Ec)|(_ & x & E)];
        rewrite E; cbn [fst snd].
      * destruct (IH e' ((OpDo v a, true) :: past) (set_do h v (Some d)) EO') as (h' & R1 & R2 & R3); auto.
        { intros u. cbn [in_force andb]. unfold set_do. rewrite String.eqb_sym. rewrite Ec, Eo.
          rewrite (dget_dset _ String.eqb_spec).
          destruct (String.eqb_spec u v) as [->|Ne]; [eauto|apply FO]. }
        exists h'. split; auto. split; auto. congruence.
      * apply (IH e ((OpDo v a, false) :: past) h EO); auto.
    + destruct (reset_do_spec e N h v SO NO EO) as [(P & e' & sd & E & EO' & Eo & Es & Ec)|(_ & E)]; rewrite E; cbn [fst snd].
      * destruct (IH e' ((OpReset v, true) :: past) (set_do h v None) EO') as (h' & R1 & R2 & R3); auto.
        { intros u. cbn [in_force andb]. unfold set_do. rewrite String.eqb_sym. rewrite Ec, Eo.
          rewrite (dget_dset _ String.eqb_spec).
          destruct (String.eqb_spec u v) as [->|Ne]; [auto|apply FO]. }
        exists h'. split; auto. split; auto. congruence.
      * apply (IH e ((OpReset v, false) :: past) h EO); auto.
    + apply (IH e _ h EO); auto.
Qed.
