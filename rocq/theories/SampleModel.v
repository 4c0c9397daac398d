(** * SampleModel: model of BBN.draw_samples, causalnex/ebaybbn/bbn.py:157-187.

    [random.choice] and [random.random] are oracles indexed by the number of the sample and the step
    within the sample, and so is the set iteration order of each query. *)
From Coq Require Import List Bool Arith ZArith Lia String QArith Qcanon.
From Verif Require Import Base BbnModel InferModel.
Import ListNotations.
Local Open Scope list_scope.

(** bbn.py:166, 171, 181 *)
Record draws := mkDraws {
  pick : nat -> nat -> nat;
  rnd : nat -> nat -> Qc;
  scheds : nat -> nat -> sched
}.

(** [tuple(sorted(sample.items()))]: bbn.py:169; the variables of a sample are distinct. *)
Definition items_key (s : list (var * value)) : key := isort (fun a b => sleb (fst a) (fst b)) s.

(** bbn.py:173-177 *)
Definition density (m : marg) (v : var) : list (value * Qc) :=
  map (fun kv => (snd (fst kv), snd kv)) (filter (fun kv => String.eqb (fst (fst kv)) v) m).

(** bbn.py:178-180 *)
Fixpoint cumul (last : Qc) (l : list (value * Qc)) : list (value * Qc) :=
  match l with
  | [] => []
  | (x, p) :: rest => (x, (last + p)%Qc) :: cumul (last + p)%Qc rest
  end.

(** bbn.py:178-180 *)
Definition cumulative (l : list (value * Qc)) : list (value * Qc) :=
  match l with
  | [] => []
  | (x, p) :: rest => (x, p) :: cumul p rest
  end.

(** bbn.py:181-185 *)
Fixpoint search (r : Qc) (l : list (value * Qc)) : res value :=
  match l with
  | [] => Err IndexError
  | (x, c) :: rest => if Qcltb c r then search r rest else Ok x
  end.

(** bbn.py:161 *)
Definition cache := list (key * marg).

(** [self.query] with the sample as keyword arguments: a variable named [self] clashes. (bbn.py:171) *)
Definition sample_query (sc : sched) (b : bbn) (s : list (var * value)) : res marg :=
  if smem "self"%string (map fst s) then Err TypeError else bbn_query sc b s.

(** bbn.py:166-185: one step of the inner loop. *)
Definition sample_step (D : draws) (b : bbn) (i j : nat) (c : cache) (s : list (var * value))
  : res (cache * list (var * value)) :=
  let free := filter (fun n => negb (smem (nvar n) (map fst s))) (bnodes b) in
  match nth_error free (pick D i j mod List.length free) with
  | None => Err IndexError
  | Some n =>
      let k := items_key s in
      do c' <- (match dget key_eqb c k with
                | Some _ => Ok c
                | None => do m <- sample_query (scheds D i j) b s; Ok (c ++ [(k, m)])
                end);
      match dget key_eqb c' k with
      | None => Err KeyError
      | Some m =>
          do x <- search (rnd D i j) (cumulative (density m (nvar n)));
          Ok (c', s ++ [(nvar n, x)])
      end
  end.

(** bbn.py:165: each step adds a variable, so the number of nodes is enough fuel. *)
Fixpoint sample_loop (fuel : nat) (D : draws) (b : bbn) (i j : nat) (c : cache) (s : list (var * value))
  : res (cache * list (var * value)) :=
  if List.length s <? List.length (bnodes b) then
    match fuel with
    | O => Err OutOfFuel
    | S n => do cs <- sample_step D b i j c s; sample_loop n D b i (S j) (fst cs) (snd cs)
    end
  else Ok (c, s).

(** bbn.py:160-187: [todo] samples, starting with number [i]. *)
Fixpoint draw_loop (todo : nat) (D : draws) (b : bbn) (q : list (var * value)) (i : nat) (c : cache)
  : res (list (list (var * value))) :=
  match todo with
  | O => Ok []
  | S n =>
      do cs <- sample_loop (List.length (bnodes b)) D b i 0 c q;
      do rest <- draw_loop n D b q (S i) (fst cs);
      Ok (snd cs :: rest)
  end.

(** bbn.py:157-187 *)
Definition draw_samples (D : draws) (b : bbn) (q : list (var * value)) (n : nat)
  : res (list (list (var * value))) := draw_loop n D b q 0 [].
