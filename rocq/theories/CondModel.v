(** * CondModel: networks built from conditional tables
    (causalnex/ebaybbn/bbn.py: make_node_func, build_bbn_from_conditionals).

    Not modelled: the attributes [__name__], [argspec] and [_domain] of the function objects are the
    fields of [factor] and the second component of the result; the names of the parents within one
    row are compared as strings, so that rows naming a parent twice, where Python goes on to compare
    the values, keep the order in which they are written. *)
From Coq Require Import List Bool String QArith Qcanon.
From Verif Require Import Base BbnModel InferModel.
Import ListNotations.
Local Open Scope list_scope.

(** One element of [conditions]: the values of the parents, and the probability of each value of
    the variable under them. (bbn.py:781, 795) *)
Definition crow := (list (var * value) * list (value * Qc))%type.

(** The argument of [build_bbn_from_conditionals], a dictionary. (bbn.py:812, 815) *)
Definition conditionals := list (var * list crow).

(** bbn.py:782-784: the pairs of [sorted(givens)] *)
Definition cond_key (givens : list (var * value)) : key := isort (fun a b => sleb (fst a) (fst b)) givens.

(** bbn.py:781-798: the assignments [tt[key_] = prob] in the order in which they are made *)
Definition cond_items (v : var) (rows : list crow) : list (key * Qc) :=
  flat_map (fun r => map (fun vp => (cond_key (fst r) ++ [(v, fst vp)], snd vp)) (snd r)) rows.

(** bbn.py:797 [domain.add(value)] for each of a list of values, on an empty set *)
Fixpoint set_of (l : list value) : list value :=
  match l with
  | [] => []
  | x :: r => if lmem x r then set_of r else x :: set_of r
  end.

(** bbn.py:780, 797: the elements of the set [domain] *)
Definition cond_values (rows : list crow) : list value := set_of (flat_map (fun r => map fst (snd r)) rows).

(** bbn.py:772-809 make_node_func.  [order] chooses the order in which the set [domain] is iterated.
    Without any conditional probability [key_] is unbound at line 800: the UnboundLocalError is
    represented by [RuntimeError]. *)
Definition make_node_func (order : var -> list value -> list value) (v : var) (rows : list crow) : res (factor * list value) :=
  match rev (cond_items v rows) with
  | [] => Err RuntimeError
  | (k, _) :: _ =>
      let argspec := map fst k in
      let tt := dict_of key_eqb (cond_items v rows) in
      Ok (mkFactor (String.append "f_" v) argspec
            (fun args => match dget key_eqb tt (combine argspec args) with
                         | Some p => Ok p
                         | None => Err KeyError
                         end),
          order v (cond_values rows))
  end.

(** bbn.py:812-819 build_bbn_from_conditionals *)
Definition build_bbn_from_conditionals (order : var -> list value -> list value) (conds : conditionals) : res bbn :=
  do fds <- mapM (fun vr => do fd <- make_node_func order (fst vr) (snd vr); Ok (fst vr, fd)) conds;
  build_bbn (map (fun e => fst (snd e)) fds) (map (fun e => (fst e, snd (snd e))) fds).

(** bbn.py:125 [query(self, **kwds)]: the evidence is passed by name, and no name can be that of the
    bound parameter. *)
Definition query_by_name (sc : sched) (b : bbn) (evidence : list (var * value)) : res marg :=
  if smem "self"%string (map fst evidence) then Err TypeError else bbn_query sc b evidence.
