(** * PoisModel: model of the count sampler, causalnex/structure/data_generators/core.py:391-463.

    Real arithmetic; np.log(0) is minus infinity, which is below everything. *)
From Coq Require Import List Bool Arith Lia Reals Lra.
From Verif Require Import Base.
Import ListNotations.
Local Open Scope nat_scope.

(** One element of the arrays: expected_count, the uniform draw, log_cond_intensity, log_intensity_budget
    and count. (core.py:447-452) *)
Record cell := mkCell { c_lam : R; c_uni : R; c_lci : R; c_lib : R; c_cnt : nat }.

(** core.py:453 *)
Definition rle (a b : R) : bool := if Rle_dec a b then true else false.
(** core.py:453 *)
Definition rlt (a b : R) : bool := if Rlt_dec a b then true else false.

(** core.py:446-452 *)
Definition cell_init (lam u : R) : cell := mkCell lam u (- lam)%R (- lam)%R 0.

(** [log_uni >= log_intensity_budget] (core.py:453, 456) *)
Definition mask (c : cell) : bool := rlt 0 (c_uni c) && rle (c_lib c) (ln (c_uni c)).

(** core.py:456-461, for one element; [np.logaddexp(a, b)] is [ln (exp a + exp b)]. *)
Definition cell_step (c : cell) : cell :=
  if mask c then
    let n := S (c_cnt c) in
    let lci := (c_lci c + ln (c_lam c / INR n))%R in
    mkCell (c_lam c) (c_uni c) lci (ln (exp (c_lib c) + exp lci)) n
  else c.

(** core.py:453-461: [any] is [np.any(mask)] with the mask that was computed last. *)
Fixpoint poisson_loop (fuel max_count : nat) (any : bool) (cs : list cell) : res (list cell) :=
  if any && (list_max (map c_cnt cs) <? max_count) then
    match fuel with
    | O => Err OutOfFuel
    | S f => poisson_loop f max_count (existsb mask cs) (map cell_step cs)
    end
  else Ok cs.

(** core.py:431-463 _sample_poisson; [lus] are the expected counts with their uniform draws. *)
Definition sample_poisson (max_count : nat) (lus : list (R * R)) : res (list nat) :=
  let cs := map (fun lu => cell_init (fst lu) (snd lu)) lus in
  do r <- poisson_loop (S (S max_count)) max_count (existsb mask cs) cs;
  Ok (map c_cnt r).

(** core.py:426-428 _exp_relu *)
Definition exp_relu (x : R) : R := if Rlt_dec x 0 then exp x else x.
