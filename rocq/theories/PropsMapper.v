(** * PropsMapper: properties C48 and C49, the variable/feature mapper and the schema check. *)
From Coq Require Import List Bool Arith ZArith Lia String Permutation.
From Verif Require Import Base Names NetModel MapperModel MapperProofs MapperThms MapperGet.
Import ListNotations.
Local Open Scope string_scope.
Local Open Scope list_scope.
Local Open Scope nat_scope.

(** C48, for schemas of the four documented types whose feature names do not clash (what is missing: with a
    clash the claim is false, see below). *)
Theorem C48_partition_partial : forall (order : list string) (ts : list (label * vtype)),
  Permutation order ["binary"; "categorical"; "continuous"; "count"] -> no_clash ts -> positive_cards ts ->
  exists m, mapper_init order (texts ts) = Ok m /\
    Permutation (variable_list m) (map fst ts) /\
    Permutation (feature_list m) (flat_map spec_features ts) /\
    (forall v t, In (v, t) ts -> exists l, get_indices m v = Ok l /\ l <> [] /\
       map (nth_error (feature_list m)) l = map Some (spec_features (v, t)) /\
       get_feature_names m v = Ok (spec_features (v, t))) /\
    (exists ls, mapM (get_indices m) (map fst ts) = Ok ls /\ Permutation (List.concat ls) (seq 0 (n_features m))) /\
    (forall i f, nth_error (feature_list m) i = Some f <-> get_feature_index m f = Ok i) /\
    (forall v, ~ In v (map fst ts) -> get_indices m v = Err ValueError).
Proof. exact mapper_partition. Qed.
Print Assumptions C48_partition_partial.

Definition ex_types : list (label * vtype) :=
  [(LStr "x", TContinuous); (LStr "c", TCategorical 3); (LInt 4, TBinary); (LStr "d", TCategorical 2); (LStr "n", TCount)].

Example C48_hypotheses_met : no_clash ex_types /\ positive_cards ex_types.
Proof.
  split; [split|].
  - unfold ex_types. vm_compute. repeat constructor; cbn; intuition discriminate.
  - intros c n i v t Hc Hi Hv Ht E. cbn in Hc, Hv.
    repeat match goal with H : _ \/ _ |- _ => destruct H end; try contradiction;
    repeat match goal with H : (_, _) = (_, _) |- _ => injection H as ?; subst end; try discriminate;
    try (destruct (Ht _ eq_refl));
    unfold part_name in E; cbn in E; discriminate.
  - intros v n H. cbn in H. repeat destruct H as [[= <- <-]|H]; try lia; tauto.
Qed.

Example C48_run : exists m,
  mapper_init PERMISSIBLE_TYPES (texts ex_types) = Ok m /\
  feature_list m = [LInt 4; LStr "x"; LStr "n"; LStr "c_0"; LStr "c_1"; LStr "c_2"; LStr "d_0"; LStr "d_1"] /\
  get_indices m (LStr "c") = Ok [3; 4; 5] /\ get_indices_list m [LStr "d"; LStr "x"] = Ok [6; 7; 1] /\
  get_feature_index m (LStr "d_1") = Ok 7 /\ get_feature_index m (LStr "c") = Err ValueError /\
  get_indices m (LStr "z") = Err ValueError.
Proof. eexists. vm_compute. repeat split. Qed.

(** The other getters: by type, for several variables, and the counts. *)
Theorem C48_getters_partial : forall (order : list string) (ts : list (label * vtype)) m,
  Permutation order ["binary"; "categorical"; "continuous"; "count"] -> no_clash ts -> positive_cards ts ->
  mapper_init order (texts ts) = Ok m ->
  (forall x, In x ["binary"; "categorical"; "continuous"; "count"] -> get_var_of_type m x = Ok (of_kind x ts)) /\
  (forall x, ~ In x ["binary"; "categorical"; "continuous"; "count"] -> get_var_of_type m x = Err ValueError) /\
  (forall v t x, In (v, t) ts -> In x ["binary"; "categorical"; "continuous"; "count"] ->
     is_var_of_type m v x = Ok (String.eqb (kind_name t) x)) /\
  (exists ls, get_categorical_indices m = Ok ls /\ Forall2 (fun v l => get_indices m v = Ok l) (of_kind "categorical" ts) ls) /\
  (forall v t, In (v, t) ts -> kind_name t <> "categorical" ->
     exists i, get_index_squeezed m v = Ok i /\ nth_error (feature_list m) i = Some v) /\
  (forall vs, incl vs (map fst ts) ->
     exists ls, Forall2 (fun v l => get_indices m v = Ok l) vs ls /\ get_indices_list m vs = Ok (List.concat ls)) /\
  n_variables m = List.length ts /\ n_features m = List.length (flat_map spec_features ts).
Proof. exact getters. Qed.
Print Assumptions C48_getters_partial.

Example C48_getters_run : exists m, mapper_init PERMISSIBLE_TYPES (texts ex_types) = Ok m /\
  get_categorical_indices m = Ok [[3; 4; 5]; [6; 7]] /\ get_var_of_type m "categorical" = Ok [LStr "c"; LStr "d"] /\
  get_index_squeezed m (LInt 4) = Ok 0 /\ n_variables m = 5 /\ n_features m = 8 /\ get_var_of_type m "ordinal" = Err ValueError.
Proof. eexists. vm_compute. repeat split. Qed.

(** With the continuous variable "a_0" next to the categorical variable "a", feature 0 belongs to no
    variable and feature 1 to two. *)
Theorem C48_clash_refuted : exists (s : schema) m,
  s = [(LStr "a", "categorical:2"); (LStr "a_0", "continuous")] /\
  mapper_init PERMISSIBLE_TYPES s = Ok m /\ validate_schema [LStr "a"; LStr "a_0"] "continuous" s = Ok s /\
  n_features m = 3 /\ get_indices m (LStr "a") = Ok [1; 2] /\ get_indices m (LStr "a_0") = Ok [1].
Proof. eexists. eexists. split; [reflexivity|]. vm_compute. repeat split. Qed.
Print Assumptions C48_clash_refuted.

(** C49: which schemas are accepted, and what is returned. *)
Theorem C49_accepts : forall (nodes : list label) (default : string) (s : schema),
  ((supported_name default /\
    forall k, In k nodes -> supported_name (type_of default s k) /\
      (substring_of "categorical" (type_of default s k) -> starts_with_cardinality (type_of default s k)))
   /\ exists r, validate_schema nodes default s = Ok r /\ completed nodes default s r)
  \/ (~ (supported_name default /\
    forall k, In k nodes -> supported_name (type_of default s k) /\
      (substring_of "categorical" (type_of default s k) -> starts_with_cardinality (type_of default s k)))
   /\ validate_schema nodes default s = Err ValueError).
Proof. exact validate_exact. Qed.
Print Assumptions C49_accepts.

(** C49: every well formed schema is accepted, completed by the default, and can be mapped (what is
    missing: other schemas are accepted too, see below). *)
Theorem C49_well_formed_partial : forall (nodes : list label) (default : string) (s : schema) (order : list string),
  well_formed default -> (forall k t, In (k, t) s -> In k nodes -> well_formed t) ->
  exists r m, validate_schema nodes default s = Ok r /\ completed nodes default s r /\ mapper_init order r = Ok m.
Proof. exact validate_complete. Qed.
Print Assumptions C49_well_formed_partial.

Example C49_hypotheses_met :
  well_formed "binary" /\
  (forall k t, In (k, t) [(LStr "a", "categorical:12"); (LStr "z", "nonsense")] -> In k [LStr "a"; LStr "b"] -> well_formed t) /\
  validate_schema [LStr "a"; LStr "b"] "binary" [(LStr "a", "categorical:12"); (LStr "z", "nonsense")]
    = Ok [(LStr "a", "categorical:12"); (LStr "b", "binary")].
Proof.
  split; [exists TBinary; split; [reflexivity|discriminate]|]. split; [|reflexivity].
  intros k t Hk H. cbn in Hk. destruct Hk as [[= <- <-]|[[= <- <-]|[]]].
  - exists (TCategorical 12). split; [reflexivity|discriminate].
  - cbn in H. destruct H as [H|[H|[]]]; discriminate.
Qed.
Example C49_rejects :
  validate_schema [LStr "a"] "continuous" [(LStr "a", "categorical")] = Err ValueError /\
  validate_schema [LStr "a"] "continuous" [(LStr "a", "categorical:03")] = Err ValueError /\
  validate_schema [LStr "a"] "continuous" [(LStr "a", "real")] = Err ValueError /\
  validate_schema [LStr "a"] "real" [(LStr "a", "count")] = Err ValueError.
Proof. repeat split. Qed.

(** Schemas with types that do not exist are accepted: one that no mapper can be built from, and ones that
    are silently read as another type or as two types at once. *)
Theorem C49_refuted :
  (exists r, validate_schema [LStr "a"] "continuous" [(LStr "a", "categorical:3abc")] = Ok r /\
     mapper_init PERMISSIBLE_TYPES r = Err ValueError) /\
  (exists r m, validate_schema [LStr "a"] "continuous" [(LStr "a", "discount")] = Ok r /\
     mapper_init PERMISSIBLE_TYPES r = Ok m /\ is_var_of_type m (LStr "a") "count" = Ok true) /\
  (exists r m, validate_schema [LStr "a"] "continuous" [(LStr "a", "categorical:2:binary")] = Ok r /\
     mapper_init PERMISSIBLE_TYPES r = Ok m /\ variable_list m = [LStr "a"; LStr "a"] /\ n_features m = 3) /\
  ~ well_formed "categorical:3abc" /\ ~ well_formed "discount".
Proof.
  split; [eexists; split; vm_compute; reflexivity|].
  split; [eexists; eexists; vm_compute; repeat split|].
  split; [eexists; eexists; vm_compute; repeat split|].
  split; intros ([| | |n] & H & _); try discriminate. unfold type_text in H. cbn [String.append] in H. injection H as H.
  pose proof (dec_digits n) as D. rewrite <- H in D. discriminate.
Qed.
Print Assumptions C49_refuted.
