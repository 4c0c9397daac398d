(** * MapperModel: model of causalnex/structure/categorical_variable_mapper.py.

    Variables are ints or strings, features are variables or strings, data types are (ASCII) strings. *)
From Coq Require Import List Bool Arith ZArith Lia String Ascii.
From Verif Require Import Base Names NetModel.
Import ListNotations.
Local Open Scope string_scope.
Local Open Scope list_scope.
Local Open Scope nat_scope.

(** ** Strings *)

(** [x in v]: substring test. (categorical_variable_mapper.py:59, python's in on strings) *)
Fixpoint starts_with (x v : string) : bool :=
  match x, v with
  | EmptyString, _ => true
  | String c x', String d v' => Ascii.eqb c d && starts_with x' v'
  | String _ _, EmptyString => false
  end.
(** categorical_variable_mapper.py:59, python's in on strings *)
Fixpoint contains (x v : string) : bool :=
  starts_with x v || match v with EmptyString => false | String _ v' => contains x v' end.

(** [v.split(":")] (categorical_variable_mapper.py:68) *)
Fixpoint split_colon (v : string) : list string :=
  match v with
  | EmptyString => [""]
  | String c r =>
      if Ascii.eqb c ":" then "" :: split_colon r
      else match split_colon r with x :: xs => String c x :: xs | [] => [String c ""] end
  end.

(** [int(s)]: surrounding white space, an optional sign, digits with single underscores between them.
    (categorical_variable_mapper.py:68, inside int) *)
Definition is_space (c : ascii) : bool := let n := nat_of_ascii c in (n =? 32)%nat || ((9 <=? n) && (n <=? 13))%nat.
(** categorical_variable_mapper.py:68, inside int *)
Fixpoint lstrip_space (s : string) : string :=
  match s with String c r => if is_space c then lstrip_space r else s | EmptyString => "" end.
(** categorical_variable_mapper.py:68, inside int *)
Fixpoint srev (s acc : string) : string := match s with EmptyString => acc | String c r => srev r (String c acc) end.
(** categorical_variable_mapper.py:68, inside int *)
Definition strip_space (s : string) : string := srev (lstrip_space (srev (lstrip_space s) "")) "".

(** categorical_variable_mapper.py:68, inside int *)
Definition digit_val (c : ascii) : Z := Z.of_nat (nat_of_ascii c - 48).
(** [acc] is the value so far; [pend] says that an underscore was just read.
    (categorical_variable_mapper.py:68, inside int) *)
Fixpoint digits (acc : Z) (pend : bool) (s : string) : option Z :=
  match s with
  | EmptyString => if pend then None else Some acc
  | String c r =>
      if is_digit c then digits (acc * 10 + digit_val c)%Z false r
      else if Ascii.eqb c "_" then (if pend then None else digits acc true r)
      else None
  end.
(** categorical_variable_mapper.py:68, inside int *)
Definition digits1 (s : string) : option Z :=
  match s with String c r => if is_digit c then digits (digit_val c) false r else None | EmptyString => None end.
(** categorical_variable_mapper.py:68 *)
Definition py_int (s : string) : res Z :=
  let o := match strip_space s with
           | String c r => if Ascii.eqb c "-" then option_map Z.opp (digits1 r)
                           else if Ascii.eqb c "+" then digits1 r else digits1 (String c r)
           | EmptyString => None
           end in
  match o with Some z => Ok z | None => Err ValueError end.

(** ** VariableFeatureMapper *)
(** categorical_variable_mapper.py:52 *)
Definition PERMISSIBLE_TYPES : list string := ["binary"; "categorical"; "continuous"; "count"].
(** categorical_variable_mapper.py:55 *)
Definition schema := list (label * string).

(** categorical_variable_mapper.py:55-113, the attributes of the object *)
Record mapper := mkMapper {
  variable_type_dict : list (string * list label);
  cat_fte_var_dict : list (label * label);
  feature_list : list label;
  fte_index_dict : list (label * nat);
  var_indices_dict : list (label * list nat) }.

(** [{k: v for ...}]: later values replace earlier ones, at the position of the first.
    (categorical_variable_mapper.py:75-81, 94, 98-113, 288) *)
Definition dict_of {V} (l : list (label * V)) : list (label * V) :=
  fold_left (fun d kv => dset label_eqb d (fst kv) (snd kv)) l [].

(** categorical_variable_mapper.py:59 *)
Definition vars_of (s : schema) (x : string) : list label :=
  map fst (filter (fun kv => contains x (snd kv)) s).

(** categorical_variable_mapper.py:68 *)
Definition second (l : list string) : res string := match l with _ :: x :: _ => Ok x | _ => Err IndexError end.

(** categorical_variable_mapper.py:99, 107, 161, 189, 217 *)
Definition lget {V} (d : list (label * V)) (k : label) : res V :=
  match dget label_eqb d k with Some v => Ok v | None => Err KeyError end.

(** "{}_{}".format(cat_var, i) (categorical_variable_mapper.py:77) *)
Definition cat_feature (v : label) (i : nat) : label := LStr (part_name (str_of v) i).

(** categorical_variable_mapper.py:94 *)
Fixpoint enumerate {A} (i : nat) (l : list A) : list (A * nat) :=
  match l with [] => [] | x :: r => (x, i) :: enumerate (S i) r end.

(** categorical_variable_mapper.py:55-113 __init__; [order] is the iteration order of the set
    PERMISSIBLE_TYPES. *)
Definition mapper_init (order : list string) (s : schema) : res mapper :=
  let vtd := map (fun x => (x, vars_of s x)) order in
  let typed x := vars_of s x in
  do cards <- mapM (fun kv => do t <- second (split_colon (snd kv)); do n <- py_int t; Ok (fst kv, n))
                   (filter (fun kv => contains "categorical" (snd kv)) s);
  let cfv := dict_of (flat_map (fun vn => map (fun i => (cat_feature (fst vn) i, fst vn)) (seq 0 (Z.to_nat (snd vn)))) cards) in
  let features := typed "binary" ++ typed "continuous" ++ typed "count" ++ map fst cfv in
  let index := dict_of (enumerate 0 features) in
  do single <- mapM (fun v => do i <- lget index v; Ok (v, [i])) (typed "continuous" ++ typed "binary" ++ typed "count");
  do multi <- mapM (fun k => do l <- mapM (fun fv => lget index (fst fv)) (filter (fun fv => label_eqb (snd fv) k) cfv); Ok (k, l))
                   (typed "categorical");
  Ok (mkMapper vtd cfv features index (dict_of (single ++ multi))).

(** categorical_variable_mapper.py:115-120 variable_list *)
Definition variable_list (m : mapper) : list label := flat_map snd (variable_type_dict m).

(** categorical_variable_mapper.py:122-139 get_var_of_type *)
Definition get_var_of_type (m : mapper) (t : string) : res (list label) :=
  if smem t PERMISSIBLE_TYPES
  then match dget String.eqb (variable_type_dict m) t with Some l => Ok l | None => Err KeyError end
  else Err ValueError.

(** categorical_variable_mapper.py:141-153 is_var_of_type *)
Definition is_var_of_type (m : mapper) (v : label) (t : string) : res bool :=
  do l <- get_var_of_type m t; Ok (memb label_eqb v l).

(** categorical_variable_mapper.py:164-199 get_indices, for one variable without squeeze. *)
Definition get_indices (m : mapper) (v : label) : res (list nat) :=
  if memb label_eqb v (variable_list m) then lget (var_indices_dict m) v else Err ValueError.
(** ... for a list, set or iterator of variables. (categorical_variable_mapper.py:190-195) *)
Definition get_indices_list (m : mapper) (vs : list label) : res (list nat) :=
  do ls <- mapM (get_indices m) vs; Ok (List.concat ls).
(** ... with squeeze, for a variable that is not categorical. (categorical_variable_mapper.py:187-188) *)
Definition get_index_squeezed (m : mapper) (v : label) : res nat :=
  do l <- get_indices m v; match l with i :: _ => Ok i | [] => Err IndexError end.

(** categorical_variable_mapper.py:155-162 get_categorical_indices *)
Definition get_categorical_indices (m : mapper) : res (list (list nat)) :=
  do l <- get_var_of_type m "categorical"; mapM (lget (var_indices_dict m)) l.

(** categorical_variable_mapper.py:201-217 get_feature_index *)
Definition get_feature_index (m : mapper) (f : label) : res nat :=
  if memb label_eqb f (variable_list m) && negb (memb label_eqb f (feature_list m)) then Err ValueError
  else lget (fte_index_dict m) f.

(** categorical_variable_mapper.py:219-236 get_feature_names; a variable that is not categorical is its
    own feature. *)
Definition get_feature_names (m : mapper) (v : label) : res (list label) :=
  do cats <- get_var_of_type m "categorical";
  Ok (if memb label_eqb v cats then map fst (filter (fun fv => label_eqb (snd fv) v) (cat_fte_var_dict m)) else [v]).

(** categorical_variable_mapper.py:238-252 n_variables, n_features *)
Definition n_variables (m : mapper) : nat := List.length (variable_list m).
(** categorical_variable_mapper.py:246-252 *)
Definition n_features (m : mapper) : nat := List.length (feature_list m).

(** ** validate_schema *)

(** [re.match(r"^categorical:[1-9]+[0-9]*", v)]: only a prefix has to match.
    (categorical_variable_mapper.py:311) *)
Definition is_1_9 (c : ascii) : bool := let n := nat_of_ascii c in ((49 <=? n) && (n <=? 57))%nat.
(** categorical_variable_mapper.py:311 *)
Fixpoint drop_prefix (x v : string) : option string :=
  match x, v with
  | EmptyString, _ => Some v
  | String c x', String d v' => if Ascii.eqb c d then drop_prefix x' v' else None
  | String _ _, EmptyString => None
  end.
(** categorical_variable_mapper.py:311 *)
Definition has_cardinality (v : string) : bool :=
  match drop_prefix "categorical:" v with Some (String c _) => is_1_9 c | _ => false end.

(** categorical_variable_mapper.py:279, 292 *)
Definition known_type (v : string) : bool := existsb (fun t => contains t v) PERMISSIBLE_TYPES.

(** categorical_variable_mapper.py:255-322 validate_schema *)
Definition validate_schema (nodes : list label) (default : string) (s : schema) : res schema :=
  if negb (known_type default) then Err ValueError
  else
    let s' := dict_of (map (fun k => (k, match dget label_eqb s k with Some t => t | None => default end)) nodes) in
    if negb (forallb (fun kv => known_type (snd kv)) s') then Err ValueError
    else if existsb (fun kv => contains "categorical" (snd kv) && negb (has_cardinality (snd kv))) s' then Err ValueError
    else Ok s'.
