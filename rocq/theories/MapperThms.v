(** * MapperThms: the mapper partitions the features; what validate_schema accepts. *)
From Coq Require Import List Bool Arith ZArith Lia String Ascii Permutation.
From Verif Require Import Base Names NetModel MapperModel MapperProofs.
Import ListNotations.
Local Open Scope string_scope.
Local Open Scope list_scope.
Local Open Scope nat_scope.

(** ** Distinct features *)

(** Variables print differently, and no variable that is not categorical is called like a category of
    another one. *)
Definition no_clash (ts : list (label * vtype)) : Prop :=
  NoDup (map (fun vt => str_of (fst vt)) ts) /\
  forall c n i v t, In (c, TCategorical n) ts -> i < n -> In (v, t) ts ->
    (forall k, t <> TCategorical k) -> v <> LStr (part_name (str_of c) i).

Lemma NoDup_app_intro {A} (l l' : list A) : NoDup l -> NoDup l' -> (forall x, In x l -> ~ In x l') -> NoDup (l ++ l').
Proof.
  induction l as [|a l IH]; cbn; auto. intros H1 H2 H. apply NoDup_cons_iff in H1. destruct H1 as [N H1].
  constructor; [|apply IH; auto]. rewrite in_app_iff. intros [X|X]; [auto|]. apply (H a); auto.
Qed.

Lemma NoDup_str_fst ts : NoDup (map (fun vt : label * vtype => str_of (fst vt)) ts) -> NoDup (map fst ts).
Proof. rewrite <- (map_map fst str_of). apply NoDup_map_inv. Qed.

Lemma no_clash_features ts : no_clash ts -> NoDup (flat_map spec_features ts).
Proof.
  intros [ND NC]. eapply Permutation_NoDup; [apply all_features_perm|]. unfold all_features. rewrite pairs_names.
  assert (Nv : NoDup (map fst ts)) by (apply NoDup_str_fst; auto).
  assert (P := sel_perm ts).
  assert (NP : NoDup (sel is_bin ts ++ sel is_cat ts ++ sel is_cont ts ++ sel is_count ts))
    by (eapply Permutation_NoDup; [symmetry; exact P | auto]).
  assert (N3 : NoDup (sel is_bin ts ++ sel is_cont ts ++ sel is_count ts)).
  { rewrite (Permutation_app_comm (sel is_cat ts)) in NP. rewrite !app_assoc in NP.
    rewrite (Permutation_app_comm _ (sel is_cat ts)) in NP. apply NoDup_tail in NP. rewrite <- !app_assoc in NP. auto. }
  rewrite !app_assoc. apply NoDup_app_intro; [rewrite <- !app_assoc; auto| |].
  - clear - ND. induction ts as [|[v t] ts IH]; [constructor|]. cbn [map fst] in ND. apply NoDup_cons_iff in ND.
    destruct ND as [N ND]. cbn [filter snd]. destruct t as [| | |n]; cbn [is_cat]; auto. cbn [flat_map].
    apply NoDup_app_intro; [|apply IH; auto|].
    + unfold spec_features. cbn [snd fst]. apply FinFun.Injective_map_NoDup; [|apply seq_NoDup].
      intros i j [= E]. apply part_name_inj in E. tauto.
    + intros x Hx Hy. unfold spec_features in Hx. cbn [snd fst] in Hx. apply in_map_iff in Hx. destruct Hx as (i & <- & _).
      apply in_flat_map in Hy. destruct Hy as ([w u] & Hw & Hu). apply filter_In in Hw. destruct Hw as [Hw Hc].
      destruct u as [| | |m]; try discriminate. unfold spec_features in Hu. cbn [snd fst] in Hu. apply in_map_iff in Hu.
      destruct Hu as (j & [= E] & _). apply part_name_inj in E. destruct E as [E _]. apply N, in_map_iff.
      exists (w, TCategorical m). auto.
  - intros x Hx Hy. apply in_flat_map in Hy. destruct Hy as ([c u] & Hc & Hu). apply filter_In in Hc.
    destruct Hc as [Hc Hu']. destruct u as [| | |n]; try discriminate. unfold spec_features in Hu. cbn [snd fst] in Hu.
    apply in_map_iff in Hu. destruct Hu as (i & <- & Hi). apply in_seq in Hi.
    rewrite !in_app_iff, !in_sel in Hx.
    assert (T : exists t, In (LStr (part_name (str_of c) i), t) ts /\ forall k, t <> TCategorical k).
    { destruct Hx as [[(t & H & E)|(t & H & E)]|(t & H & E)]; exists t; split; auto; intros k ->; discriminate. }
    destruct T as (t & H & E). eapply NC; eauto. lia.
Qed.

(** ** C48 *)
Definition positive_cards (ts : list (label * vtype)) : Prop := forall v n, In (v, TCategorical n) ts -> 0 < n.

Lemma indices_perm (fs : list label) (is : list nat) (names : list label) :
  NoDup fs -> Permutation fs names -> map (nth_error fs) is = map Some names -> Permutation is (seq 0 (List.length fs)).
Proof.
  intros ND P E.
  assert (L : List.length is = List.length fs).
  { apply (f_equal (@List.length _)) in E. rewrite !map_length in E. rewrite (Permutation_length P). auto. }
  apply NoDup_Permutation_bis.
  - apply (NoDup_map_inv (nth_error fs)). rewrite E. apply FinFun.Injective_map_NoDup; [intros a b [= ->]; auto|].
    eapply Permutation_NoDup; eauto.
  - rewrite seq_length. lia.
  - intros i Hi. apply in_seq. split; [lia|]. cbn. apply nth_error_Some. intros N.
    assert (X : In (nth_error fs i) (map (nth_error fs) is)) by (apply in_map; auto).
    rewrite E, N in X. apply in_map_iff in X. destruct X as (? & ? & _). discriminate.
Qed.

Lemma dget_types order ts : Permutation order PERMISSIBLE_TYPES -> forall x, In x PERMISSIBLE_TYPES ->
  dget String.eqb (map (fun x => (x, vars_of (texts ts) x)) order) x = Some (vars_of (texts ts) x).
Proof.
  intros P x Hx. apply (In_dget _ String.eqb_spec).
  - unfold dkeys. rewrite map_map. cbn [fst]. rewrite map_id. eapply Permutation_NoDup; [symmetry; exact P|].
    unfold PERMISSIBLE_TYPES. repeat constructor; cbn; intuition discriminate.
  - apply in_map_iff. exists x. split; auto. rewrite P. auto.
Qed.

Theorem mapper_partition order ts :
  Permutation order PERMISSIBLE_TYPES -> no_clash ts -> positive_cards ts ->
  exists m, mapper_init order (texts ts) = Ok m /\
    Permutation (variable_list m) (map fst ts) /\
    Permutation (feature_list m) (flat_map spec_features ts) /\
    (forall v t, In (v, t) ts -> exists l, get_indices m v = Ok l /\ l <> [] /\
       map (nth_error (feature_list m)) l = map Some (spec_features (v, t)) /\
       get_feature_names m v = Ok (spec_features (v, t))) /\
    (exists ls, mapM (get_indices m) (map fst ts) = Ok ls /\ Permutation (List.concat ls) (seq 0 (n_features m))) /\
    (forall i f, nth_error (feature_list m) i = Some f <-> get_feature_index m f = Ok i) /\
    (forall v, ~ In v (map fst ts) -> get_indices m v = Err ValueError).
Proof.
  intros Po NC Pos. pose proof (no_clash_features ts NC) as NDf. pose proof (NoDup_str_fst ts (proj1 NC)) as NDv.
  destruct (mapper_good order ts Po NDv NDf) as (m & E & Ef & Ei & Ec & Et & Hi & _). exists m. split; auto.
  assert (Pv : Permutation (variable_list m) (map fst ts)).
  { unfold variable_list. rewrite Et. apply dict_order_perm; auto. }
  assert (Mv : forall v, memb label_eqb v (variable_list m) = true <-> In v (map fst ts)).
  { intros v. rewrite (memb_In _ label_eqb_spec). rewrite Pv. tauto. }
  assert (Pf : Permutation (feature_list m) (flat_map spec_features ts)) by (rewrite Ef; apply all_features_perm).
  assert (NDa : NoDup (feature_list m)) by (eapply Permutation_NoDup; [symmetry; exact Pf | auto]).
  split; auto. split; auto.
  assert (G : forall v t, In (v, t) ts -> exists l, get_indices m v = Ok l /\ map (nth_error (feature_list m)) l = map Some (spec_features (v, t))).
  { intros v t H. unfold get_indices. rewrite (proj2 (Mv v)) by (apply in_map_iff; exists (v, t); auto). rewrite Ef. apply Hi; auto. }
  split; [|split; [|split]].
  - intros v t H. destruct (G v t H) as (l & El & Hl). exists l. split; auto. split.
    { intros ->. cbn in Hl. destruct t as [| | |n]; try discriminate. unfold spec_features in Hl. cbn [snd fst] in Hl.
      pose proof (Pos v n H). destruct n; [lia|]. discriminate. }
    split; auto. unfold get_feature_names, get_var_of_type. rewrite Et. cbn [smem PERMISSIBLE_TYPES].
    replace (smem "categorical" PERMISSIBLE_TYPES) with true by reflexivity.
    rewrite dget_types by (auto; cbn; tauto). cbn [bind].
    rewrite (vars_of_sel "categorical" is_cat) by apply text_cat. rewrite Ec. f_equal.
    destruct (memb label_eqb v (sel is_cat ts)) eqn:M.
    + rewrite (memb_In _ label_eqb_spec) in M. apply in_sel in M. destruct M as (t' & H' & Ht').
      assert (t' = t).
      { pose proof (In_dget _ label_eqb_spec _ _ _ NDv H) as G1. pose proof (In_dget _ label_eqb_spec _ _ _ NDv H') as G2. congruence. }
      subst t'. destruct t as [| | |n]; try discriminate.
      rewrite (filter_pairs (cats ts) v n (NoDup_cats ts NDv)) by (apply in_cats; auto).
      rewrite map_map. reflexivity.
    + rewrite (memb_false _ label_eqb_spec) in M. destruct t as [| | |n]; try reflexivity.
      exfalso. apply M, in_sel. exists (TCategorical n). auto.
  - destruct (mapM_exists (fun vt => get_indices m (fst vt)) (fun vt l => map (nth_error (feature_list m)) l = map Some (spec_features vt)) ts)
      as (ls & Els & F).
    { intros [v t] H. apply G; auto. }
    exists ls. split.
    { clear - Els. revert ls Els. induction ts as [|vt ts IH]; cbn; auto. intros ls H. destruct (get_indices m (fst vt)); cbn in *; try discriminate.
      destruct (mapM (fun vt => get_indices m (fst vt)) ts) eqn:E; cbn in *; try discriminate. rewrite (IH _ eq_refl). auto. }
    apply (indices_perm _ _ (flat_map spec_features ts)); auto.
    clear - F. induction F as [|vt l ts ls H F IH]; cbn; auto. rewrite !map_app. rewrite IH, H. auto.
  - intros i f. unfold get_feature_index.
    assert (X : forall f, In f (feature_list m) -> (memb label_eqb f (variable_list m) && negb (memb label_eqb f (feature_list m))) = false).
    { intros g Hg. apply andb_false_iff. right. apply negb_false_iff. apply (memb_In _ label_eqb_spec). auto. }
    split.
    + intros Hf. rewrite X by (eapply nth_error_In; eauto). rewrite Ei, <- Ef.
      destruct (index_get (feature_list m) f NDa) as (j & Hj & El); [eapply nth_error_In; eauto|].
      rewrite El. f_equal. eapply NoDup_nth_error; eauto; [|congruence].
      apply nth_error_Some. congruence.
    + destruct (memb label_eqb f (feature_list m)) eqn:M.
      * rewrite andb_false_r. rewrite (memb_In _ label_eqb_spec) in M. rewrite Ei, <- Ef.
        destruct (index_get (feature_list m) f NDa M) as (j & Hj & El). rewrite El. intros [= <-]. auto.
      * destruct (memb label_eqb f (variable_list m)); cbn; [discriminate|]. unfold lget.
        replace (dget label_eqb (fte_index_dict m) f) with (@None nat); [discriminate|]. symmetry.
        apply (dget_None _ label_eqb_spec). rewrite Ei. rewrite dict_of_id by (rewrite enumerate_fst, <- Ef; auto).
        unfold dkeys. rewrite enumerate_fst, <- Ef. apply (memb_false _ label_eqb_spec); auto.
  - intros v Hv. unfold get_indices. destruct (memb label_eqb v (variable_list m)) eqn:M; auto. apply Mv in M. tauto.
Qed.

(** ** C49 *)

(** Declarative substring. *)
Definition substring_of (x v : string) : Prop := exists a b, v = String.append a (String.append x b).

Lemma starts_with_spec x v : starts_with x v = true <-> exists b, v = String.append x b.
Proof.
  revert v. induction x as [|c x IH]; intros v; cbn; [split; eauto|]. destruct v as [|d v].
  - split; [discriminate|]. intros (b & H). discriminate.
  - rewrite andb_true_iff, IH. split.
    + intros [E (b & ->)]. destruct (Ascii.eqb_spec c d); [subst|discriminate]. eauto.
    + intros (b & [= -> ->]). rewrite Ascii.eqb_refl. eauto.
Qed.

Lemma contains_spec x v : contains x v = true <-> substring_of x v.
Proof.
  unfold substring_of. induction v as [|d v IH].
  - cbn [contains]. rewrite orb_false_r, starts_with_spec. split.
    + intros (b & H). exists "", b. auto.
    + intros ([|] & b & H); [eauto|discriminate].
  - cbn [contains]. rewrite orb_true_iff, starts_with_spec, IH. split.
    + intros [(b & ->)|(a & b & ->)]; [exists "", b | exists (String d a), b]; auto.
    + intros ([|c a] & b & H); [left; eauto|]. right. cbn in H. injection H as -> ->. eauto.
Qed.

Lemma drop_prefix_spec x v r : drop_prefix x v = Some r <-> v = String.append x r.
Proof.
  revert v. induction x as [|c x IH]; intros v; cbn; [split; congruence|]. destruct v as [|d v]; [split; discriminate|].
  destruct (Ascii.eqb_spec c d) as [->|N]; [rewrite IH; split; congruence|]. split; [discriminate|]. congruence.
Qed.

Definition starts_with_cardinality (v : string) : Prop :=
  exists c r, v = String.append "categorical:" (String c r) /\ In c (chars "123456789").

Lemma is_1_9_spec c : is_1_9 c = true <-> In c (chars "123456789").
Proof.
  split.
  - destruct c as [[] [] [] [] [] [] [] []]; cbn; try discriminate; intros _; tauto.
  - cbn. intros H. repeat destruct H as [<-|H]; try reflexivity. tauto.
Qed.

Lemma has_cardinality_spec v : has_cardinality v = true <-> starts_with_cardinality v.
Proof.
  unfold has_cardinality, starts_with_cardinality. split.
  - destruct (drop_prefix "categorical:" v) as [[|c r]|] eqn:E; try discriminate. intros H. exists c, r.
    apply drop_prefix_spec in E. apply is_1_9_spec in H. auto.
  - intros (c & r & E & H). apply drop_prefix_spec in E. rewrite E. apply is_1_9_spec. auto.
Qed.

Definition supported_name (v : string) : Prop :=
  exists x, In x ["binary"; "categorical"; "continuous"; "count"] /\ substring_of x v.
Lemma known_type_spec v : known_type v = true <-> supported_name v.
Proof.
  unfold known_type, supported_name. rewrite existsb_exists. split; intros (x & H & E); exists x; split; auto; apply contains_spec; auto.
Qed.

(** The type that a node gets. *)
Definition type_of (default : string) (s : schema) (k : label) : string :=
  match find (fun kv => label_eqb k (fst kv)) s with Some kv => snd kv | None => default end.

Lemma type_of_dget default s k :
  match dget label_eqb s k with Some t => t | None => default end = type_of default s k.
Proof.
  unfold type_of. induction s as [|[a b] s IH]; cbn; auto. destruct (label_eqb k a); auto.
Qed.

(** [r] has exactly the nodes as keys, once each, with their types. *)
Definition completed (nodes : list label) (default : string) (s r : schema) : Prop :=
  NoDup (map fst r) /\ forall k t, In (k, t) r <-> In k nodes /\ t = type_of default s k.

Lemma dict_of_nodup {V} (l : list (label * V)) : NoDup (map fst (dict_of l)).
Proof.
  unfold dict_of. change (NoDup (dkeys (dupdate label_eqb [] l))). apply (dupdate_NoDup _ label_eqb_spec). constructor.
Qed.

Lemma completed_dict nodes default s :
  completed nodes default s
    (dict_of (map (fun k => (k, match dget label_eqb s k with Some t => t | None => default end)) nodes)).
Proof.
  set (l := map _ nodes). split; [apply dict_of_nodup|]. intros k t.
  assert (F : forall k t, In (k, t) l <-> In k nodes /\ t = type_of default s k).
  { intros k' t'. unfold l. rewrite in_map_iff. split.
    - intros (x & [= -> <-] & H). rewrite type_of_dget. auto.
    - intros [H ->]. exists k'. rewrite type_of_dget. auto. }
  split.
  - intros H. apply F. pose proof (In_dget _ label_eqb_spec _ _ _ (dict_of_nodup l) H) as G. rewrite dict_of_get in G.
    apply (dget_In _ label_eqb_spec) in G. apply in_rev in G. auto.
  - intros H. apply F in H. apply (dget_In _ label_eqb_spec). rewrite dict_of_get.
    assert (K : In k (dkeys (List.rev l))).
    { unfold dkeys. apply in_map_iff. exists (k, t). split; auto. apply in_rev in H. auto. }
    destruct (dget_key_Some _ label_eqb_spec _ _ K) as (t' & G). rewrite G. f_equal.
    apply (dget_In _ label_eqb_spec) in G. apply in_rev in G. apply F in G. apply F in H. destruct G, H. congruence.
Qed.

Theorem validate_exact nodes default s :
  ((supported_name default /\
    forall k, In k nodes -> supported_name (type_of default s k) /\
      (substring_of "categorical" (type_of default s k) -> starts_with_cardinality (type_of default s k)))
   /\ exists r, validate_schema nodes default s = Ok r /\ completed nodes default s r)
  \/ (~ (supported_name default /\
    forall k, In k nodes -> supported_name (type_of default s k) /\
      (substring_of "categorical" (type_of default s k) -> starts_with_cardinality (type_of default s k)))
   /\ validate_schema nodes default s = Err ValueError).
Proof.
  unfold validate_schema. destruct (known_type default) eqn:Kd; cbn [negb].
  2:{ right. split; auto. intros [H _]. apply known_type_spec in H. congruence. }
  pose proof (completed_dict nodes default s) as C. set (r := dict_of _) in *. destruct C as [ND C].
  destruct (forallb (fun kv => known_type (snd kv)) r) eqn:Fa; cbn [negb].
  2:{ right. split; auto. intros [_ H]. apply not_true_iff_false in Fa. apply Fa, forallb_forall. intros [k t] Hk.
      apply C in Hk. destruct Hk as [Hk ->]. cbn. apply known_type_spec. apply H; auto. }
  destruct (existsb _ r) eqn:Ex.
  - right. split; auto. intros [_ H]. apply existsb_exists in Ex. destruct Ex as ([k t] & Hk & E). apply C in Hk. destruct Hk as [Hk ->].
    cbn [snd] in E. apply andb_true_iff in E. destruct E as [E1 E2]. apply contains_spec in E1. apply (H k Hk) in E1.
    apply has_cardinality_spec in E1. rewrite E1 in E2. discriminate.
  - left. split; [|exists r; split; auto; split; auto]. split; [apply known_type_spec; auto|]. intros k Hk.
    assert (Hr : In (k, type_of default s k) r) by (apply C; auto).
    split.
    + rewrite forallb_forall in Fa. apply known_type_spec. apply (Fa _ Hr).
    + intros Sub. apply has_cardinality_spec. destruct (has_cardinality (type_of default s k)) eqn:Hc; auto. exfalso.
      apply not_true_iff_false in Ex. apply Ex, existsb_exists. eexists. split; [exact Hr|]. cbn [snd]. apply contains_spec in Sub.
      rewrite Sub, Hc. auto.
Qed.

Definition well_formed (v : string) : Prop := exists t, v = type_text t /\ t <> TCategorical 0.

Lemma dec_pos n : 0 < n -> exists c r, dec n = String c r /\ is_1_9 c = true.
Proof.
  intros H. unfold dec, DecimalString.NilZero.string_of_uint.
  pose proof (DecimalNat.Unsigned.of_to n) as E.
  pose proof (DecimalNat.Unsigned.to_of (Nat.to_uint n)) as T. rewrite E in T.
  destruct (Nat.to_uint n) as [|d|d|d|d|d|d|d|d|d|d] eqn:U; cbn; try (eexists; eexists; split; [reflexivity|]; reflexivity).
  - cbn in E. lia.
  - exfalso. unfold Decimal.unorm in T. cbn [Decimal.nzhead] in T.
    destruct (Decimal.nzhead d) eqn:Hz; try discriminate.
    + injection T as T. subst d. cbn in E. lia.
    + eapply DecimalFacts.nzhead_nonzero. exact Hz.
Qed.

Lemma well_formed_ok v : well_formed v ->
  supported_name v /\ (substring_of "categorical" v -> starts_with_cardinality v).
Proof.
  intros (t & -> & N). split.
  - apply known_type_spec. unfold known_type. cbn [existsb PERMISSIBLE_TYPES].
    rewrite text_bin, text_cat, text_cont, text_count. destruct t; reflexivity.
  - intros S. apply contains_spec in S. rewrite text_cat in S. destruct t as [| | |n]; try discriminate.
    destruct (dec_pos n) as (c & r & E & H); [destruct n; [congruence|lia]|]. exists c, r. unfold type_text. rewrite E.
    split; auto. apply is_1_9_spec; auto.
Qed.

(** The constructor never fails on a well typed schema, whatever the names. *)
Lemma lget_enum (fs : list label) x : In x fs -> exists j, lget (dict_of (enumerate 0 fs)) x = Ok j.
Proof.
  intros H. unfold lget. rewrite dict_of_get.
  destruct (dget_key_Some _ label_eqb_spec (List.rev (enumerate 0 fs)) x) as (v & ->); eauto.
  unfold dkeys. rewrite map_rev, enumerate_fst. apply in_rev in H. auto.
Qed.

Theorem mapper_init_total order ts : exists m, mapper_init order (texts ts) = Ok m.
Proof.
  unfold mapper_init. rewrite cards_ok. cbn [bind]. rewrite pairs_of_cards.
  set (cfv := dict_of (cat_pairs (cats ts))).
  set (fs := vars_of (texts ts) "binary" ++ vars_of (texts ts) "continuous" ++ vars_of (texts ts) "count" ++ map fst cfv).
  destruct (mapM_exists (fun v => do i <- lget (dict_of (enumerate 0 fs)) v; Ok (v, [i])) (fun _ _ => True)
    (vars_of (texts ts) "continuous" ++ vars_of (texts ts) "binary" ++ vars_of (texts ts) "count")) as (single & -> & _).
  { intros v Hv. destruct (lget_enum fs v) as (j & ->); [|cbn; eauto]. unfold fs. rewrite !in_app_iff in *. tauto. }
  cbn [bind].
  match goal with |- context [mapM ?f (vars_of (texts ts) "categorical")] =>
    destruct (mapM_exists f (fun _ _ => True) (vars_of (texts ts) "categorical")) as (multi & -> & _) end.
  { intros k _. destruct (mapM_exists (fun fv : label * label => lget (dict_of (enumerate 0 fs)) (fst fv)) (fun _ _ => True)
      (filter (fun fv => label_eqb (snd fv) k) cfv)) as (l & -> & _); [|cbn; eauto].
    intros fv Hfv. destruct (lget_enum fs (fst fv)) as (j & ->); eauto. apply filter_In in Hfv. unfold fs. rewrite !in_app_iff.
    right. right. right. apply in_map. tauto. }
  cbn. eauto.
Qed.

Lemma texts_of (r : schema) : (forall k t, In (k, t) r -> well_formed t) -> exists ts, r = texts ts /\ positive_cards ts.
Proof.
  induction r as [|[k v] r IH]; intros H; [exists []; split; auto; intros ? ? []|].
  destruct IH as (ts & -> & P); [intros; eapply H; right; eauto|].
  destruct (H k v) as (t & -> & N); [left; auto|]. exists ((k, t) :: ts). split; auto.
  intros w n [[= -> ->]|X]; eauto. destruct n; [congruence|lia].
Qed.

Theorem validate_complete nodes default s order :
  well_formed default -> (forall k t, In (k, t) s -> In k nodes -> well_formed t) ->
  exists r m, validate_schema nodes default s = Ok r /\ completed nodes default s r /\ mapper_init order r = Ok m.
Proof.
  intros Wd Ws.
  assert (W : forall k, In k nodes -> well_formed (type_of default s k)).
  { intros k Hk. unfold type_of. destruct (find _ s) as [[k' t]|] eqn:F; auto. apply find_some in F. destruct F as [F E].
    cbn in E. destruct (label_eqb_spec k k'); [subst|discriminate]. eapply Ws; eauto. }
  destruct (validate_exact nodes default s) as [[_ (r & E & C)]|[N _]].
  - destruct (texts_of r) as (ts & -> & _).
    { intros k t H. apply C in H. destruct H as [H ->]. auto. }
    destruct (mapper_init_total order ts) as (m & M). eauto.
  - exfalso. apply N. split; [apply well_formed_ok; auto|]. intros k Hk. apply well_formed_ok; auto.
Qed.
