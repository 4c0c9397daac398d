(** * MapperProofs: proofs about the model of the variable/feature mapper. *)
From Coq Require Import List Bool Arith ZArith Lia String Ascii Permutation Decimal DecimalString DecimalNat.
From Verif Require Import Base Names NetModel MapperModel TransProofs TransThms.
Import ListNotations.
Local Open Scope string_scope.
Local Open Scope list_scope.
Local Open Scope nat_scope.

(** ** Strings *)
Lemma starts_digits c x s : is_digit c = false -> all_chars is_digit s = true -> starts_with (String c x) s = false.
Proof.
  intros Hc. destruct s as [|d s]; cbn; auto. rewrite andb_true_iff. intros [Hd _].
  destruct (Ascii.eqb_spec c d) as [->|N]; auto. congruence.
Qed.
Lemma contains_digits c x s : is_digit c = false -> all_chars is_digit s = true -> contains (String c x) s = false.
Proof.
  intros Hc. induction s as [|d s IH]; cbn [contains]; auto. intros H. rewrite starts_digits; auto.
  cbn in H. apply andb_true_iff in H. destruct H; auto.
Qed.

Lemma split_colon_digits s : all_chars is_digit s = true -> split_colon s = [s].
Proof.
  induction s as [|d s IH]; cbn; auto. rewrite andb_true_iff. intros [Hd Hs]. rewrite IH; auto.
  destruct (Ascii.eqb_spec d ":") as [->|N]; auto. discriminate.
Qed.

Lemma chars_srev s acc : chars (srev s acc) = List.rev (chars s) ++ chars acc.
Proof. revert acc. induction s as [|c s IH]; intros acc; cbn; auto. rewrite IH. cbn. rewrite <- app_assoc. auto. Qed.

Lemma srev_involutive s : srev (srev s "") "" = s.
Proof.
  apply chars_inj. rewrite !chars_srev. cbn [chars]. rewrite !app_nil_r. apply rev_involutive.
Qed.

Lemma digit_not_space c : is_digit c = true -> is_space c = false.
Proof.
  unfold is_digit, is_space. rewrite andb_true_iff, !Nat.leb_le. intros H.
  apply orb_false_iff. split; [apply Nat.eqb_neq; lia|]. apply andb_false_iff. right. apply Nat.leb_gt. lia.
Qed.

Lemma lstrip_digits s : all_chars is_digit s = true -> lstrip_space s = s.
Proof.
  destruct s as [|c s]; cbn; auto. rewrite andb_true_iff. intros [H _]. rewrite digit_not_space; auto.
Qed.

Lemma strip_digits s : all_chars is_digit s = true -> strip_space s = s.
Proof.
  intros H. unfold strip_space. rewrite (lstrip_digits s H). rewrite lstrip_digits.
  - apply srev_involutive.
  - apply all_chars_In. intros c Hc. rewrite chars_srev in Hc. cbn in Hc. rewrite app_nil_r in Hc.
    apply in_rev in Hc. rewrite all_chars_In in H. auto.
Qed.

Lemma digits_uint u : forall a,
  digits (Z.of_nat a) false (NilEmpty.string_of_uint u) = Some (Z.of_nat (Nat.of_uint_acc u a)).
Proof.
  induction u; intros a; cbn [NilEmpty.string_of_uint digits is_digit Nat.of_uint_acc]; auto;
  match goal with |- context [is_digit ?c] => change (is_digit c) with true end; cbn iota;
  rewrite <- IHu; f_equal; rewrite Nat.tail_mul_spec;
  match goal with |- context [digit_val ?c] => let v := eval vm_compute in (digit_val c) in change (digit_val c) with v end;
  lia.
Qed.

Lemma digits1_dec n : digits1 (dec n) = Some (Z.of_nat n).
Proof.
  assert (H : forall c r, is_digit c = true -> digits1 (String c r) = digits 0 false (String c r)).
  { intros c r Hc. cbn. rewrite Hc. auto. }
  assert (H2 : digits1 (dec n) = digits 0 false (dec n)).
  { pose proof (dec_nonempty n) as N. pose proof (dec_digits n) as D. destruct (dec n) as [|c r]; [congruence|].
    apply H. cbn in D. apply andb_true_iff in D. tauto. }
  rewrite H2. unfold dec, NilZero.string_of_uint.
  assert (E : Nat.of_uint (Nat.to_uint n) = n) by apply Unsigned.of_to.
  destruct (Nat.to_uint n) eqn:U.
  - cbn in E. subst n. reflexivity.
  - rewrite <- E. rewrite (digits_uint _ 0). reflexivity.
  - rewrite <- E. rewrite (digits_uint _ 0). reflexivity.
  - rewrite <- E. rewrite (digits_uint _ 0). reflexivity.
  - rewrite <- E. rewrite (digits_uint _ 0). reflexivity.
  - rewrite <- E. rewrite (digits_uint _ 0). reflexivity.
  - rewrite <- E. rewrite (digits_uint _ 0). reflexivity.
  - rewrite <- E. rewrite (digits_uint _ 0). reflexivity.
  - rewrite <- E. rewrite (digits_uint _ 0). reflexivity.
  - rewrite <- E. rewrite (digits_uint _ 0). reflexivity.
  - rewrite <- E. rewrite (digits_uint _ 0). reflexivity.
Qed.

Lemma py_int_dec n : py_int (dec n) = Ok (Z.of_nat n).
Proof.
  unfold py_int. rewrite strip_digits by apply dec_digits.
  pose proof (dec_nonempty n) as N. pose proof (dec_digits n) as D. pose proof (digits1_dec n) as V.
  destruct (dec n) as [|c r]; [congruence|]. cbn in D. apply andb_true_iff in D. destruct D as [D _].
  destruct (Ascii.eqb_spec c "-") as [->|N1]; [discriminate|]. destruct (Ascii.eqb_spec c "+") as [->|N2]; [discriminate|].
  rewrite V. auto.
Qed.

(** ** Specification: a variable has one of four types *)
Inductive vtype := TBinary | TContinuous | TCount | TCategorical (n : nat).
Definition type_text (t : vtype) : string :=
  match t with
  | TBinary => "binary" | TContinuous => "continuous" | TCount => "count"
  | TCategorical n => String.append "categorical:" (dec n)
  end.
Definition texts (ts : list (label * vtype)) : schema := map (fun vt => (fst vt, type_text (snd vt))) ts.
(** One feature per category, the variable itself for the other types. *)
Definition spec_features (vt : label * vtype) : list label :=
  match snd vt with
  | TCategorical n => map (fun i => LStr (part_name (str_of (fst vt)) i)) (seq 0 n)
  | _ => [fst vt]
  end.

Definition is_bin t := match t with TBinary => true | _ => false end.
Definition is_cont t := match t with TContinuous => true | _ => false end.
Definition is_count t := match t with TCount => true | _ => false end.
Definition is_cat t := match t with TCategorical _ => true | _ => false end.

Ltac text_tac := intros t; destruct t as [| | |n]; try reflexivity; unfold type_text;
  cbn -[dec]; apply contains_digits; [reflexivity | apply dec_digits].
Lemma text_bin : forall t, contains "binary" (type_text t) = is_bin t.
Proof. text_tac. Qed.
Lemma text_cont : forall t, contains "continuous" (type_text t) = is_cont t.
Proof. text_tac. Qed.
Lemma text_count : forall t, contains "count" (type_text t) = is_count t.
Proof. text_tac. Qed.
Lemma text_cat : forall t, contains "categorical" (type_text t) = is_cat t.
Proof. intros t; destruct t; reflexivity. Qed.

Lemma split_text n : split_colon (type_text (TCategorical n)) = ["categorical"; dec n].
Proof. unfold type_text. cbn -[dec]. rewrite split_colon_digits by apply dec_digits. reflexivity. Qed.

(** ** Dictionaries *)
Lemma dset_new {V} (d : list (label * V)) k v : ~ In k (map fst d) -> dset label_eqb d k v = d ++ [(k, v)].
Proof.
  induction d as [|[k' v'] d IH]; cbn; auto. intros H. destruct (label_eqb_spec k k') as [->|N]; [tauto|].
  rewrite IH; auto.
Qed.
Lemma dict_of_app {V} (l : list (label * V)) d : NoDup (map fst (d ++ l)) ->
  fold_left (fun d kv => dset label_eqb d (fst kv) (snd kv)) l d = d ++ l.
Proof.
  revert d. induction l as [|[k v] l IH]; intros d H; cbn; [rewrite app_nil_r; auto|].
  rewrite dset_new.
  - rewrite IH; rewrite <- app_assoc; cbn; auto.
  - rewrite map_app in H. cbn in H. apply NoDup_remove_2 in H. rewrite in_app_iff in H. tauto.
Qed.
Lemma dict_of_id {V} (l : list (label * V)) : NoDup (map fst l) -> dict_of l = l.
Proof. intros H. unfold dict_of. rewrite dict_of_app; auto. Qed.

Lemma dict_of_get {V} (l : list (label * V)) k : dget label_eqb (dict_of l) k = dget label_eqb (List.rev l) k.
Proof.
  pose proof (dget_dupdate _ label_eqb_spec (V := V) [] l k) as H. unfold dupdate in H. unfold dict_of. rewrite H.
  destruct (dget label_eqb (List.rev l) k); auto.
Qed.

Lemma lget_In {V} (d : list (label * V)) k v : NoDup (map fst d) -> In (k, v) d -> lget d k = Ok v.
Proof. intros ND H. unfold lget. rewrite (In_dget _ label_eqb_spec d k v ND H). auto. Qed.

(** ** Enumeration *)
Lemma enumerate_fst {A} (l : list A) i : map fst (enumerate i l) = l.
Proof. revert i. induction l; intros i; cbn; auto. f_equal; auto. Qed.
Lemma enumerate_In {A} (l : list A) i x j : nth_error l j = Some x -> In (x, i + j) (enumerate i l).
Proof.
  revert i j. induction l as [|y l IH]; intros i [|j]; cbn; try discriminate.
  - intros [= ->]. left. f_equal. lia.
  - intros H. right. replace (i + S j) with (S i + j) by lia. auto.
Qed.

Lemma index_get (fs : list label) x : NoDup fs -> In x fs ->
  exists j, nth_error fs j = Some x /\ lget (dict_of (enumerate 0 fs)) x = Ok j.
Proof.
  intros ND H. destruct (In_nth_error _ _ H) as [j Hj]. exists j. split; auto.
  rewrite dict_of_id by (rewrite enumerate_fst; auto). apply lget_In; [rewrite enumerate_fst; auto|].
  apply (enumerate_In fs 0 x j Hj).
Qed.

Lemma mapM_exists {A B} (f : A -> res B) (R : A -> B -> Prop) l :
  (forall x, In x l -> exists y, f x = Ok y /\ R x y) -> exists ys, mapM f l = Ok ys /\ Forall2 R l ys.
Proof.
  induction l as [|x l IH]; intros H; cbn; [exists []; auto|].
  destruct (H x) as (y & E & Hy); [left; auto|]. rewrite E. cbn.
  destruct IH as (ys & E2 & F); [intros; apply H; right; auto|]. rewrite E2. cbn. eauto.
Qed.

(** ** The constructor on a well typed schema *)
Definition sel (p : vtype -> bool) (ts : list (label * vtype)) : list label :=
  map fst (filter (fun vt => p (snd vt)) ts).
Definition cats (ts : list (label * vtype)) : list (label * nat) :=
  flat_map (fun vt => match snd vt with TCategorical n => [(fst vt, n)] | _ => [] end) ts.
Definition cat_pairs (l : list (label * nat)) : list (label * label) :=
  flat_map (fun vn => map (fun i => (cat_feature (fst vn) i, fst vn)) (seq 0 (snd vn))) l.

Lemma vars_of_sel x p ts : (forall t, contains x (type_text t) = p t) -> vars_of (texts ts) x = sel p ts.
Proof.
  intros H. unfold vars_of, sel, texts. induction ts as [|[v t] ts IH]; cbn [map filter fst snd]; auto.
  rewrite H. destruct (p t); cbn [map fst]; rewrite IH; auto.
Qed.

Lemma cards_ok ts :
  mapM (fun kv => do t <- second (split_colon (snd kv)); do n <- py_int t; Ok (fst kv, n))
       (filter (fun kv => contains "categorical" (snd kv)) (texts ts))
  = Ok (map (fun vn => (fst vn, Z.of_nat (snd vn))) (cats ts)).
Proof.
  induction ts as [|[v t] ts IH]; auto. cbn [texts map filter fst snd]. rewrite text_cat.
  fold (texts ts). destruct t as [| | |n]; cbn [is_cat cats flat_map snd fst List.app]; try exact IH.
  cbn [mapM fst snd]. rewrite split_text. cbn [second bind]. rewrite py_int_dec. cbn [bind]. rewrite IH. reflexivity.
Qed.

Lemma pairs_of_cards l :
  flat_map (fun vn : label * Z => map (fun i => (cat_feature (fst vn) i, fst vn)) (seq 0 (Z.to_nat (snd vn))))
    (map (fun vn => (fst vn, Z.of_nat (snd vn))) l) = cat_pairs l.
Proof.
  induction l as [|[v n] l IH]; cbn [map flat_map fst snd cat_pairs]; auto. rewrite Nat2Z.id. fold (cat_pairs l).
  rewrite IH. auto.
Qed.

Lemma pairs_names ts : map fst (cat_pairs (cats ts)) = flat_map spec_features (filter (fun vt => is_cat (snd vt)) ts).
Proof.
  induction ts as [|[v t] ts IH]; auto. cbn [cats flat_map filter snd fst].
  destruct t as [| | |n]; cbn [is_cat List.app]; try exact IH.
  cbn [cat_pairs flat_map fst snd]. rewrite map_app, map_map. cbn [fst]. fold (cats ts) (cat_pairs (cats ts)).
  rewrite IH. reflexivity.
Qed.

Definition all_features (ts : list (label * vtype)) : list label :=
  sel is_bin ts ++ sel is_cont ts ++ sel is_count ts ++ map fst (cat_pairs (cats ts)).

Lemma all_features_perm ts : Permutation (all_features ts) (flat_map spec_features ts).
Proof.
  unfold all_features. rewrite pairs_names. unfold sel. induction ts as [|[v t] ts IH]; auto.
  cbn [filter snd flat_map]. 
  destruct t as [| | |n]; cbn [is_bin is_cont is_count is_cat map fst flat_map spec_features snd].
  - cbn [List.app]. constructor. exact IH.
  - cbn [List.app]. rewrite <- Permutation_middle. constructor. exact IH.
  - cbn [List.app]. rewrite <- IH. rewrite !app_assoc. rewrite <- !app_assoc.
    rewrite (app_assoc (map fst (filter (fun vt : label * vtype => is_bin (snd vt)) ts))).
    rewrite <- Permutation_middle. rewrite <- !app_assoc. auto.
  - rewrite <- IH.
    set (x := map (fun i => LStr (part_name (str_of v) i)) (seq 0 n)). clearbody x.
    rewrite !app_assoc. apply Permutation_app_tail. rewrite <- !app_assoc.
    rewrite (Permutation_app_comm x). rewrite <- !app_assoc. auto.
Qed.

Definition cat_vars ts := sel is_cat ts.
Lemma sel_perm ts : Permutation (sel is_bin ts ++ sel is_cat ts ++ sel is_cont ts ++ sel is_count ts) (map fst ts).
Proof.
  unfold sel. induction ts as [|[v t] ts IH]; auto.
  cbn [filter snd map fst].
  destruct t as [| | |n]; cbn [is_bin is_cont is_count is_cat map fst List.app]; rewrite <- IH.
  - reflexivity.
  - symmetry. rewrite !app_assoc. rewrite <- !(app_assoc _ _ (v :: _ ++ _)) || idtac. rewrite <- !app_assoc.
    rewrite app_assoc. rewrite (app_assoc (map fst (filter (fun vt : label * vtype => is_bin (snd vt)) ts))). apply Permutation_middle.
  - symmetry. rewrite !app_assoc. apply Permutation_middle.
  - symmetry. apply Permutation_middle.
Qed.

Lemma in_sel p ts v : In v (sel p ts) <-> exists t, In (v, t) ts /\ p t = true.
Proof.
  unfold sel. rewrite in_map_iff. split.
  - intros ([v' t] & <- & H). apply filter_In in H. eauto.
  - intros (t & H & Hp). exists (v, t). rewrite filter_In. auto.
Qed.

Lemma in_cats ts v n : In (v, n) (cats ts) <-> In (v, TCategorical n) ts.
Proof.
  unfold cats. rewrite in_flat_map. split.
  - intros ([v' t] & H & E). destruct t as [| | |m]; cbn in E; try tauto. destruct E as [[= <- <-]|[]]. auto.
  - intros H. exists (v, TCategorical n). cbn. auto.
Qed.

Lemma NoDup_cats ts : NoDup (map fst ts) -> NoDup (map fst (cats ts)).
Proof.
  induction ts as [|[v t] ts IH]; cbn [map fst]; intros H; [constructor|]. apply NoDup_cons_iff in H. destruct H as [N H].
  cbn [cats flat_map]. fold (cats ts). destruct t as [| | |n]; cbn [snd fst List.app map]; auto.
  constructor; auto. intros X. apply in_map_iff in X. destruct X as ([a m] & Ea & X). cbn in Ea. subst a.
  apply in_cats in X. apply N, in_map_iff. eexists; split; [|exact X]. auto.
Qed.

Lemma filter_pairs l v n : NoDup (map fst l) -> In (v, n) l ->
  filter (fun fv => label_eqb (snd fv) v) (cat_pairs l) = map (fun i => (cat_feature v i, v)) (seq 0 n).
Proof.
  assert (A : forall w m u, w <> u -> filter (fun fv : label * label => label_eqb (snd fv) u) (map (fun i => (cat_feature w i, w)) m) = []).
  { intros w m u N. induction m as [|i m IH]; cbn; auto. destruct (label_eqb_spec w u); congruence. }
  assert (B : forall u l, ~ In u (map fst l) -> filter (fun fv : label * label => label_eqb (snd fv) u) (cat_pairs l) = []).
  { intros u l'. induction l' as [|[w m] l' IH]; cbn [map fst cat_pairs flat_map snd]; auto. intros H. rewrite filter_app, A.
    - apply IH. cbn in H. tauto.
    - cbn in H. intros ->. tauto. }
  induction l as [|[w m] l IH]; cbn [map fst cat_pairs flat_map snd]; intros ND H; [destruct H|].
  apply NoDup_cons_iff in ND. destruct ND as [N ND]. fold (cat_pairs l). rewrite filter_app. destruct H as [[= -> ->]|H].
  - rewrite B, app_nil_r by auto. clear. generalize (seq 0 n). intros s. induction s as [|i s IHs]; cbn [map filter snd]; [reflexivity|]. destruct (label_eqb_spec v v); [|congruence].
    rewrite IHs; reflexivity.
  - rewrite A; [cbn; auto|]. intros ->. apply N, in_map_iff. exists (v, n). auto.
Qed.

Lemma Forall2_keys {A B} (R : A -> B -> Prop) (f : B -> A) l ys :
  Forall2 R l ys -> (forall x y, R x y -> f y = x) -> map f ys = l.
Proof. intros F H. induction F; cbn; auto. f_equal; auto. Qed.

Lemma Forall2_In_l {A B} (R : A -> B -> Prop) l ys x : Forall2 R l ys -> In x l -> exists y, In y ys /\ R x y.
Proof. intros F. induction F as [|a b l ys Rab F IHF]; cbn; [tauto|]. intros [<-|H]; eauto. destruct (IHF H) as (y' & ? & ?). eauto. Qed.

Lemma dict_order_perm (order : list string) ts : Permutation order PERMISSIBLE_TYPES ->
  Permutation (flat_map snd (map (fun x => (x, vars_of (texts ts) x)) order)) (map fst ts).
Proof.
  intros P. rewrite (Permutation_flat_map snd (Permutation_map _ P)).
  cbn [PERMISSIBLE_TYPES map flat_map snd]. rewrite app_nil_r.
  rewrite (vars_of_sel "binary" is_bin), (vars_of_sel "categorical" is_cat), (vars_of_sel "continuous" is_cont), (vars_of_sel "count" is_count)
    by auto using text_bin, text_cat, text_cont, text_count.
  apply sel_perm.
Qed.

Lemma NoDup_tail {A} (l l' : list A) : NoDup (l ++ l') -> NoDup l'.
Proof. induction l; cbn; auto. intros H. apply NoDup_cons_iff in H. tauto. Qed.

(** Everything the properties need to know about the mapper of a well typed schema. *)
Lemma mapper_good order ts : Permutation order PERMISSIBLE_TYPES -> NoDup (map fst ts) -> NoDup (flat_map spec_features ts) ->
  exists m, mapper_init order (texts ts) = Ok m /\
    feature_list m = all_features ts /\
    fte_index_dict m = dict_of (enumerate 0 (all_features ts)) /\
    cat_fte_var_dict m = cat_pairs (cats ts) /\
    variable_type_dict m = map (fun x => (x, vars_of (texts ts) x)) order /\
    (forall v t, In (v, t) ts -> exists l, lget (var_indices_dict m) v = Ok l /\
        map (nth_error (all_features ts)) l = map Some (spec_features (v, t))) /\
    Permutation (map fst (var_indices_dict m)) (map fst ts).
Proof.
  intros Po NDv NDf.
  assert (NDa : NoDup (all_features ts)) by (eapply Permutation_NoDup; [symmetry; apply all_features_perm | auto]).
  assert (NDc : NoDup (map fst (cat_pairs (cats ts)))).
  { unfold all_features in NDa. apply NoDup_tail, NoDup_tail, NoDup_tail in NDa. auto. }
  unfold mapper_init. rewrite cards_ok. cbn [bind]. rewrite pairs_of_cards. rewrite (dict_of_id (cat_pairs _) NDc).
  rewrite (vars_of_sel "binary" is_bin), (vars_of_sel "categorical" is_cat), (vars_of_sel "continuous" is_cont), (vars_of_sel "count" is_count)
    by auto using text_bin, text_cat, text_cont, text_count.
  change (sel is_bin ts ++ sel is_cont ts ++ sel is_count ts ++ map fst (cat_pairs (cats ts))) with (all_features ts).
  set (fs := all_features ts) in *.
  set (index := dict_of (enumerate 0 fs)).
  destruct (mapM_exists (fun v => do i <- lget index v; Ok (v, [i])) (fun v p => fst p = v /\ map (nth_error fs) (snd p) = [Some v])
    (sel is_cont ts ++ sel is_bin ts ++ sel is_count ts)) as (single & E1 & F1).
  { intros v Hv. destruct (index_get fs v NDa) as (j & Hj & El).
    { unfold fs, all_features. rewrite !in_app_iff in *. tauto. }
    fold index in El. rewrite El. cbn. eexists; split; [reflexivity|]. cbn. rewrite Hj. auto. }
  rewrite E1. cbn [bind].
  destruct (mapM_exists (fun k => do l <- mapM (fun fv => lget index (fst fv)) (filter (fun fv => label_eqb (snd fv) k) (cat_pairs (cats ts))); Ok (k, l))
    (fun k p => fst p = k /\ forall n, In (k, TCategorical n) ts -> map (nth_error fs) (snd p) = map Some (spec_features (k, TCategorical n)))
    (sel is_cat ts)) as (multi & E2 & F2).
  { intros k Hk. apply in_sel in Hk. destruct Hk as (t & Ht & Hc). destruct t as [| | |n]; try discriminate.
    rewrite (filter_pairs (cats ts) k n (NoDup_cats ts NDv)) by (apply in_cats; auto).
    destruct (mapM_exists (fun fv : label * label => lget index (fst fv)) (fun fv j => nth_error fs j = Some (fst fv))
       (map (fun i => (cat_feature k i, k)) (seq 0 n))) as (js & E & F).
    { intros fv Hfv. destruct (index_get fs (fst fv) NDa) as (j & Hj & El).
      - unfold fs, all_features. rewrite !in_app_iff. right. right. right. apply in_map_iff. exists fv. split; auto.
        unfold cat_pairs. apply in_flat_map. exists (k, n). split; [apply in_cats; auto|]. auto.
      - eauto. }
    rewrite E. cbn. eexists; split; [reflexivity|]. cbn [fst snd]. split; auto. intros n' Hn'.
    assert (n' = n).
    { apply in_cats in Hn'. apply in_cats in Ht. pose proof (NoDup_cats ts NDv) as X.
      pose proof (In_dget _ label_eqb_spec _ _ _ X Hn') as G1. pose proof (In_dget _ label_eqb_spec _ _ _ X Ht) as G2. congruence. }
    subst n'. clear - F. unfold spec_features. cbn [snd fst]. rewrite map_map.
    revert js F. generalize (seq 0 n). intros s. induction s as [|i s IH]; intros js F; inversion F; subst; cbn; auto.
    rewrite H1. cbn [fst]. unfold cat_feature. f_equal. apply IH; auto. }
  rewrite E2. cbn [bind].
  eexists. split; [reflexivity|]. cbn [feature_list fte_index_dict cat_fte_var_dict variable_type_dict var_indices_dict].
  do 4 (split; [reflexivity|]).
  assert (K1 : map fst single = sel is_cont ts ++ sel is_bin ts ++ sel is_count ts)
    by (eapply Forall2_keys; [exact F1 | intros x y [H _]; auto]).
  assert (K2 : map fst multi = sel is_cat ts) by (eapply Forall2_keys; [exact F2 | intros x y [H _]; auto]).
  assert (Pk : Permutation (map fst ts) (map fst (single ++ multi))).
  { rewrite map_app, K1, K2. rewrite <- (sel_perm ts).
    rewrite <- !app_assoc. rewrite (Permutation_app_comm (sel is_cat ts)). rewrite <- !app_assoc.
    rewrite !(app_assoc (sel is_bin ts)). rewrite (Permutation_app_comm (sel is_bin ts) (sel is_cont ts)). rewrite <- !app_assoc. auto. }
  assert (NDk : NoDup (map fst (single ++ multi))) by (eapply Permutation_NoDup; [exact Pk|exact NDv]).
  rewrite (dict_of_id _ NDk). split; [|symmetry; exact Pk]. intros v t H.
  destruct (is_cat t) eqn:Ec.
  - destruct t as [| | |n]; try discriminate.
    destruct (Forall2_In_l _ _ _ v F2) as ([k l] & Hin & Hk & Hl).
    { apply in_sel. exists (TCategorical n). auto. }
    cbn [fst snd] in *. subst k. exists l. split; [|auto]. apply lget_In; auto. apply in_app_iff. auto.
  - destruct (Forall2_In_l _ _ _ v F1) as ([k l] & Hin & Hk & Hl).
    { rewrite !in_app_iff, !in_sel. destruct t as [| | |n]; try discriminate; eauto 6. }
    cbn [fst snd] in *. subst k. exists l. split; [apply lget_In; auto; apply in_app_iff; auto|]. rewrite Hl.
    destruct t; try discriminate; reflexivity.
Qed.
