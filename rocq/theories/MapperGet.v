(** * MapperGet: the remaining getters of the variable/feature mapper. *)
From Coq Require Import List Bool Arith ZArith Lia String Permutation.
From Verif Require Import Base Names NetModel MapperModel MapperProofs MapperThms.
Import ListNotations.
Local Open Scope string_scope.
Local Open Scope list_scope.
Local Open Scope nat_scope.

(** ** Specification *)
Definition kind_name (t : vtype) : string :=
  match t with TBinary => "binary" | TContinuous => "continuous" | TCount => "count" | TCategorical _ => "categorical" end.

(** The variables of a kind, in the order of the schema. *)
Definition of_kind (x : string) (ts : list (label * vtype)) : list label :=
  map fst (filter (fun vt => String.eqb (kind_name (snd vt)) x) ts).

(** ** Proofs *)
Lemma of_kind_vars x ts : In x PERMISSIBLE_TYPES -> vars_of (texts ts) x = of_kind x ts.
Proof.
  intros H. unfold of_kind.
  assert (K : forall p, (forall t, contains x (type_text t) = p t) -> (forall t, p t = String.eqb (kind_name t) x) ->
    vars_of (texts ts) x = map fst (filter (fun vt => String.eqb (kind_name (snd vt)) x) ts)).
  { intros p Hp Hk. rewrite (vars_of_sel x p ts Hp). unfold sel. f_equal. apply filter_ext. intros [v t]. cbn [snd]. auto. }
  destruct H as [<-|[<-|[<-|[<-|[]]]]].
  - apply (K is_bin); [apply text_bin|intros []; reflexivity].
  - apply (K is_cat); [apply text_cat|intros []; reflexivity].
  - apply (K is_cont); [apply text_cont|intros []; reflexivity].
  - apply (K is_count); [apply text_count|intros []; reflexivity].
Qed.

Lemma mapM_total {A B} (f : A -> res B) l : (forall x, In x l -> exists y, f x = Ok y) ->
  exists ys, mapM f l = Ok ys /\ Forall2 (fun x y => f x = Ok y) l ys.
Proof.
  induction l as [|x l IH]; intros H; [exists []; split; auto|].
  destruct (H x) as (y & E); [left; auto|]. destruct IH as (ys & E' & F); [intros; apply H; right; auto|].
  exists (y :: ys). cbn [mapM]. rewrite E. cbn [bind]. rewrite E'. cbn [bind]. auto.
Qed.

Section Get.
  Variables (order : list string) (ts : list (label * vtype)) (m : mapper).
  Hypothesis Po : Permutation order PERMISSIBLE_TYPES.
  Hypothesis NC : no_clash ts.
  Hypothesis Pos : positive_cards ts.
  Hypothesis E : mapper_init order (texts ts) = Ok m.

  Lemma get_type x : get_var_of_type m x = if smem x PERMISSIBLE_TYPES then Ok (of_kind x ts) else Err ValueError.
  Proof.
    destruct (mapper_good order ts Po (NoDup_str_fst ts (proj1 NC)) (no_clash_features ts NC)) as (m' & E' & _ & _ & _ & Et & _).
    rewrite E in E'. injection E' as <-. unfold get_var_of_type. destruct (smem x PERMISSIBLE_TYPES) eqn:S; auto.
    rewrite Et. apply smem_In in S. rewrite dget_types by auto. rewrite of_kind_vars; auto.
  Qed.

  Lemma in_of_kind v t x : In (v, t) ts -> (In v (of_kind x ts) <-> kind_name t = x).
  Proof.
    intros H. unfold of_kind. rewrite in_map_iff. split.
    - intros ([v' t'] & <- & H'). apply filter_In in H' as (H' & Ek). cbn [fst snd] in *.
      assert (t' = t).
      { pose proof (NoDup_str_fst ts (proj1 NC)) as NDv.
        pose proof (In_dget _ label_eqb_spec _ _ _ NDv H) as G1. pose proof (In_dget _ label_eqb_spec _ _ _ NDv H') as G2. congruence. }
      subst t'. apply String.eqb_eq. auto.
    - intros <-. exists (v, t). rewrite filter_In. cbn [fst snd]. rewrite String.eqb_refl. auto.
  Qed.

  Lemma get_all : exists m', mapper_init order (texts ts) = Ok m' /\ m' = m /\
    Permutation (variable_list m) (map fst ts) /\
    Permutation (feature_list m) (flat_map spec_features ts) /\
    (forall v t, In (v, t) ts -> exists l, get_indices m v = Ok l /\ l <> [] /\
       map (nth_error (feature_list m)) l = map Some (spec_features (v, t))).
  Proof.
    destruct (mapper_partition order ts Po NC Pos) as (m' & E' & P1 & P2 & I & _). rewrite E in E'. injection E' as <-.
    exists m. split; auto. split; auto. split; auto. split; auto. intros v t H. destruct (I v t H) as (l & A & B & C & _). eauto.
  Qed.

  Theorem getters :
    (forall x, In x ["binary"; "categorical"; "continuous"; "count"] -> get_var_of_type m x = Ok (of_kind x ts)) /\
    (forall x, ~ In x ["binary"; "categorical"; "continuous"; "count"] -> get_var_of_type m x = Err ValueError) /\
    (forall v t x, In (v, t) ts -> In x ["binary"; "categorical"; "continuous"; "count"] ->
       is_var_of_type m v x = Ok (String.eqb (kind_name t) x)) /\
    (exists ls, get_categorical_indices m = Ok ls /\ Forall2 (fun v l => get_indices m v = Ok l) (of_kind "categorical" ts) ls) /\
    (forall v t, In (v, t) ts -> kind_name t <> "categorical" ->
       exists i, get_index_squeezed m v = Ok i /\ nth_error (feature_list m) i = Some v) /\
    (forall vs, incl vs (map fst ts) ->
       exists ls, Forall2 (fun v l => get_indices m v = Ok l) vs ls /\ get_indices_list m vs = Ok (List.concat ls)) /\
    n_variables m = List.length ts /\ n_features m = List.length (flat_map spec_features ts).
  Proof.
    destruct get_all as (m' & _ & -> & P1 & P2 & I).
    assert (S : forall x, smem x PERMISSIBLE_TYPES = true <-> In x ["binary"; "categorical"; "continuous"; "count"]) by (intros x; apply smem_In).
    assert (GI : forall v, In v (map fst ts) -> exists l, get_indices m v = Ok l).
    { intros v H. apply in_map_iff in H as ([v' t] & <- & H). destruct (I v' t H) as (l & A & _). eauto. }
    split; [intros x H; rewrite get_type, (proj2 (S x) H); auto|].
    split; [intros x H; rewrite get_type; destruct (smem x PERMISSIBLE_TYPES) eqn:Ex; auto; apply S in Ex; contradiction|].
    split; [|split; [|split; [|split]]].
    - intros v t x H Hx. unfold is_var_of_type. rewrite get_type, (proj2 (S x) Hx). cbn [bind]. f_equal.
      destruct (memb label_eqb v (of_kind x ts)) eqn:M, (String.eqb_spec (kind_name t) x) as [Ek|Ek]; auto.
      + rewrite (memb_In _ label_eqb_spec) in M. apply (in_of_kind v t x H) in M. contradiction.
      + rewrite (memb_false _ label_eqb_spec) in M. exfalso. apply M. apply (in_of_kind v t x H). auto.
    - unfold get_categorical_indices. rewrite get_type, (proj2 (S "categorical")) by (cbn; auto). cbn [bind].
      assert (V : forall v, In v (of_kind "categorical" ts) -> In v (map fst ts)).
      { intros v H. unfold of_kind in H. apply in_map_iff in H as ([v' t] & <- & H). apply filter_In in H as (H & _).
        apply in_map_iff. exists (v', t); auto. }
      destruct (mapM_total (lget (var_indices_dict m)) (of_kind "categorical" ts)) as (ls & E1 & F).
      { intros v H. destruct (GI v (V v H)) as (l & El). unfold get_indices in El.
        destruct (memb label_eqb v (variable_list m)); [eauto|discriminate]. }
      exists ls. split; auto. clear E1. assert (F' : Forall2 (fun v l => lget (var_indices_dict m) v = Ok l /\ In v (map fst ts)) (of_kind "categorical" ts) ls).
      { revert V F. generalize (of_kind "categorical" ts). intros l V F. induction F; constructor; auto. split; auto. apply V. left; auto. apply IHF. intros; apply V; right; auto. }
      clear F V. induction F' as [|v l vs ls (H & Hv) F' IH]; constructor; auto. unfold get_indices.
      replace (memb label_eqb v (variable_list m)) with true; auto. symmetry. apply (memb_In _ label_eqb_spec). rewrite P1. auto.
    - intros v t H Nk. destruct (I v t H) as (l & El & _ & Ml). unfold get_index_squeezed. rewrite El. cbn [bind].
      assert (Sf : spec_features (v, t) = [v]) by (destruct t; auto; exfalso; apply Nk; auto).
      rewrite Sf in Ml. destruct l as [|i [|]]; try discriminate. cbn [map] in Ml. injection Ml as Ml. eauto.
    - intros vs Hv. destruct (mapM_total (get_indices m) vs) as (ls & E1 & F); [intros v H; apply GI; apply Hv; auto|].
      exists ls. split; auto. unfold get_indices_list. rewrite E1. auto.
    - unfold n_variables, n_features. rewrite (Permutation_length P1), (Permutation_length P2), map_length. auto.
  Qed.
End Get.
