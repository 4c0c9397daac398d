(** * InferModel: model of causalnex/inference/inference.py (InferenceEngine).

    Simplifications:
    - probabilities are exact rationals;
    - a CPD data frame is its index, its column level names, its columns and its rows; the single
      column of a parentless node, labelled with the empty string, is the column [[]] (zip with the
      empty string yields the empty tuple, inference.py:264-266);
    - a node function reads [self._cpds] when called; every assignment to [self._cpds] is followed by
      [_generate_bbn], so it is modelled as reading the dictionary it was generated from. *)
From Coq Require Import List Bool Arith ZArith Lia String Ascii QArith Qcanon.
From Verif Require Import Base BbnModel.
Import ListNotations.
Local Open Scope list_scope.
Local Open Scope string_scope.

(** A CPD as returned by BayesianNetwork.cpds (network.py:223-269). *)
Record frame := mkFrame {
  fr_index : list value;
  fr_names : list var;
  fr_columns : list (list value);
  fr_rows : list (list Qc)
}.

(** What the engine reads of a BayesianNetwork: [bn.nodes] and [bn.cpds]. (inference.py:107, 114, 238, 272) *)
Record bnet := mkBnet { bn_nodes : list var; bn_cpds : list (var * frame) }.

(** [self._cpds]: node -> state -> conditions -> probability. (inference.py:264-269) *)
Definition cdict := list (key * Qc).
(** inference.py:263-271 *)
Definition sdict := list (value * cdict).
(** inference.py:262-273 *)
Definition cpds := list (var * sdict).

(** A dict comprehension: later bindings of a key overwrite earlier ones. (inference.py:262-273) *)
Definition dict_of {K V} (eqb : K -> K -> bool) (l : list (K * V)) : list (K * V) :=
  fold_left (fun d kv => dset eqb d (fst kv) (snd kv)) l [].

(** inference.py:262-274 *)
Definition cond_dict (fr : frame) (row : list Qc) : cdict :=
  dict_of key_eqb (map (fun cp => (combine (fr_names fr) (fst cp), snd cp)) (combine (fr_columns fr) row)).

(** inference.py:263-271 *)
Definition state_dict (fr : frame) : sdict :=
  dict_of label_eqb (map (fun sr => (fst sr, cond_dict fr (snd sr))) (combine (fr_index fr) (fr_rows fr))).

(** inference.py:241-276 _create_cpds_dict_bn *)
Definition create_cpds_dict (fs : list (var * frame)) : cpds :=
  map (fun vf => (fst vf, state_dict (snd vf))) fs.

(** inference.py:107 [re.match("^[0-9a-zA-Z_]+$", node)]; [$] also matches before a final newline. *)
Definition is_digit (c : ascii) : bool :=
  let n := nat_of_ascii c in (48 <=? n)%nat && (n <=? 57)%nat.
(** inference.py:107 *)
Definition is_letter (c : ascii) : bool :=
  let n := nat_of_ascii c in
  ((65 <=? n)%nat && (n <=? 90)%nat) || ((97 <=? n)%nat && (n <=? 122)%nat) || (n =? 95)%nat.
(** inference.py:107 *)
Definition newline : ascii := ascii_of_nat 10.

(** inference.py:107 *)
Fixpoint word_tail (s : string) : bool :=
  match s with
  | EmptyString => true
  | String c rest =>
      if is_digit c || is_letter c then word_tail rest
      else match rest with EmptyString => Ascii.eqb c newline | _ => false end
  end.

(** inference.py:107 *)
Definition name_matches (s : string) : bool :=
  match s with
  | EmptyString => false
  | String c rest => (is_digit c || is_letter c) && word_tail rest
  end.

(** [str.isidentifier] on ASCII names; [inspect.signature] (utils.py:56, called for every node by
    bbn.py:61 and 741) raises ValueError for a parameter that is no identifier. *)
Fixpoint word_chars (s : string) : bool :=
  match s with
  | EmptyString => true
  | String c rest => (is_digit c || is_letter c) && word_chars rest
  end.

(** inference.py:231, inside build_bbn *)
Definition is_identifier (s : string) : bool :=
  match s with
  | EmptyString => false
  | String c rest => is_letter c && word_chars rest
  end.

(** inference.py:281-293: the body of a node function.  [arg_spec.locals] is the frame's local
    dictionary, in which the closure variable [self] overrides an argument of that name. *)
Definition node_fun (cp : cpds) (args : list var) (vals : list value) : res Qc :=
  if smem "self" args then Err KeyError
  else match combine args vals with
  | [] => Err IndexError
  | (v, x) :: conds =>
      match dget String.eqb cp v with
      | None => Err KeyError
      | Some sd =>
          match dget label_eqb sd x with
          | None => Err KeyError
          | Some cd =>
              match dget key_eqb cd conds with
              | None => Err KeyError
              | Some p => Ok p
              end
          end
      end
  end.

(** inference.py:278-319 _create_node_function and 321-340 _create_node_functions *)
Definition create_node_function (cp : cpds) (ns : var * sdict) : res (var * factor) :=
  let (node, states) := ns in
  match states with
  | [] => Err IndexError
  | (_, conds) :: _ =>
      match conds with
      | [] => Err IndexError
      | (c, _) :: _ =>
          let args := node :: map fst c in
          Ok (node, mkFactor ("f_" ++ node) args (node_fun cp args))
      end
  end.

(** inference.py:321-340 *)
Definition create_node_functions (cp : cpds) : res (list (var * factor)) :=
  mapM (create_node_function cp) cp.

(** The engine's attributes. (inference.py:120, 229-231, 237, 275-276) *)
Record eng := mkEng {
  e_cpds : cpds;
  e_orig : cpds;
  e_doms : list (var * list value);
  e_funs : list (var * factor);
  e_bbn : bbn
}.

(** build_bbn as called by the engine: inspecting the parameters of a node function fails for names
    that are no identifiers. (inference.py:231-233) *)
Definition build_engine_bbn (fs : list (var * factor)) (doms : list (var * list value)) : res bbn :=
  if forallb (fun vf => forallb is_identifier (fargs (snd vf))) fs
  then build_bbn (map snd fs) doms
  else Err ValueError.

(** inference.py:227-233 _generate_bbn: the resulting attributes and the outcome. *)
Definition generate_bbn (e : eng) : eng * res unit :=
  match create_node_functions (e_cpds e) with
  | Err x => (e, Err x)
  | Ok fs =>
      match build_engine_bbn fs (e_doms e) with
      | Err x => (mkEng (e_cpds e) (e_orig e) (e_doms e) fs (e_bbn e), Err x)
      | Ok b => (mkEng (e_cpds e) (e_orig e) (e_doms e) fs b, Ok tt)
      end
  end.

(** inference.py:91-124 __init__ *)
Definition engine_new (bn : bnet) : res eng :=
  if forallb name_matches (bn_nodes bn) then
    match bn_cpds bn with
    | [] => Err ValueError
    | fs =>
        let cp := create_cpds_dict fs in
        let doms := map (fun vf => (fst vf, fr_index (snd vf))) fs in
        match generate_bbn (mkEng cp cp doms [] (mkBbn [] doms)) with
        | (e, Ok _) => Ok e
        | (_, Err x) => Err x
        end
    end
  else Err ValueError.

(** The result of a query: node -> state -> probability. (inference.py:128, 145-149) *)
Definition qresult := list (var * list (value * Qc)).

(** inference.py:126-149 query.  [**observations] cannot carry the name of the bound parameter. *)
Definition engine_query (sc : sched) (e : eng) (obs : list (var * value)) : res qresult :=
  if smem "self" (map fst obs) then Err TypeError
  else
    do m <- bbn_query sc (e_bbn e) obs;
    foldM (fun r kv =>
             match dget String.eqb r (fst (fst kv)) with
             | None => Err KeyError
             | Some d => Ok (dset String.eqb r (fst (fst kv)) (dset label_eqb d (snd (fst kv)) (snd kv)))
             end) m (map (fun vs => (fst vs, [])) (e_cpds e)).

(** The argument of do_intervention: an int (or bool), a dictionary, or anything else hashable.
    (inference.py:182, 210) *)
Inductive ivarg := IvInt (z : Z) | IvDict (d : list (value * Qc)) | IvOther.

(** inference.py:163 *)
Definition qsum (l : list Qc) : Qc := fold_left Qcplus l 0%Qc.
(** inference.py:166 *)
Definition Qcltb (x y : Qc) : bool := match (x ?= y)%Qc with Lt => true | _ => false end.

(** inference.py:171 *)
Definition same_set (a b : list value) : bool :=
  forallb (fun x => lmem x b) a && forallb (fun x => lmem x a) b.

(** inference.py:151-179 _do *)
Definition do_ (e : eng) (node : var) (st : list (value * Qc)) : eng * res unit :=
  if negb (Qc_eq_bool (qsum (map snd st)) 1) then (e, Err ValueError)
  else if existsb (fun p => Qcltb 1 p) (map snd st) || existsb (fun p => Qcltb p 0) (map snd st)
  then (e, Err ValueError)
  else match dget String.eqb (e_orig e) node with
       | None => (e, Err KeyError)
       | Some sd =>
           if same_set (dkeys st) (dkeys sd)
           then (mkEng (dset String.eqb (e_cpds e) node (map (fun sp => (fst sp, [([], snd sp)])) st))
                       (e_orig e) (e_doms e) (e_funs e) (e_bbn e), Ok tt)
           else (e, Err ValueError)
       end.

(** inference.py:181-214 do_intervention *)
Definition do_intervention (e : eng) (node : var) (arg : ivarg) : eng * res unit :=
  if negb (existsb (fun vf => smem node (tl (fargs (snd vf)))) (e_funs e)) then (e, Err ValueError)
  else
    let go st := match do_ e node st with
                 | (e', Ok _) => generate_bbn e'
                 | r => r
                 end in
    match arg with
    | IvOther => (e, Err AttributeError)
    | IvDict d => go d
    | IvInt z =>
        match dget String.eqb (e_cpds e) node with
        | None => (e, Err KeyError)
        | Some sd => go (map (fun s => (s, if label_eqb s (LInt z) then 1%Qc else 0%Qc)) (dkeys sd))
        end
    end.

(** inference.py:216-225 reset_do *)
Definition reset_do (e : eng) (node : var) : eng * res unit :=
  match dget String.eqb (e_orig e) node with
  | None => (e, Err KeyError)
  | Some sd => generate_bbn (mkEng (dset String.eqb (e_cpds e) node sd)
                                   (e_orig e) (e_doms e) (e_funs e) (e_bbn e))
  end.

(** A history of calls. (inference.py:126-225, the public methods) *)
Inductive iop :=
| OpDo (node : var) (arg : ivarg)
| OpReset (node : var)
| OpQuery (obs : list (var * value)).

(** inference.py:126-225 *)
Definition istep (e : eng) (o : iop) : eng * res unit :=
  match o with
  | OpDo v a => do_intervention e v a
  | OpReset v => reset_do e v
  | OpQuery _ => (e, Ok tt)
  end.

(** inference.py:126-225, method calls one after the other *)
Fixpoint irun (e : eng) (ops : list iop) : eng :=
  match ops with
  | [] => e
  | o :: rest => irun (fst (istep e o)) rest
  end.
