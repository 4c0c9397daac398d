(** * LossModel: the losses of the distribution types and the objective of the torch learner, over the reals.

    torch's functions are their documented formulas; rounding is not modelled. *)
From Coq Require Import List Bool Arith ZArith Lia String QArith Qcanon Qround Reals.
From Verif Require Import Base Names Digraph SmModel QcX NetModel NotearsModel AcycModel AcycLink TorchModel SklModel.
Import ListNotations.
Local Open Scope list_scope.
Local Open Scope nat_scope.

(** binary.py:58-62, ordinal.py:146, poisson.py:78-84, pytorch/core.py:464 *)
Definition rmean (l : list R) : R := (SklModel.rsum l / INR (List.length l))%R.

(** [torch.nn.functional.binary_cross_entropy_with_logits] of one element: ATen computes
    (1 - y) x + m + log(exp(-m) + exp(-x - m)) with m = max(-x, 0). (binary.py:58-62) *)
Definition bce_logits (x y : R) : R := let m := Rmax (- x) 0 in ((1 - y) * x + m + ln (exp (- m) + exp (- x - m)))%R.
(** [torch.nn.functional.cross_entropy] of one row: log-sum-exp minus the score of the class; a class that does
    not exist is an IndexError. (categorical.py:243-247) *)
Definition cross_entropy (x : list R) (c : nat) : res R :=
  match nth_error x c with Some xc => Ok (- xc + ln (SklModel.rsum (map exp x)))%R | None => Err IndexError end.
(** [torch.nn.functional.poisson_nll_loss] with log_input=True, full=False (poisson.py:78-84) *)
Definition poisson_nll (x y : R) : R := (exp x - y * x)%R.

(** [torch.argmax] of one row: the first of the largest entries. (categorical.py:243-247) *)
Fixpoint argmax (l : list Qc) : nat :=
  match l with [] => 0 | x :: r => if forallb (fun y => qle y x) r then 0 else S (argmax r) end.

(** [tensor.long()] (ordinal.py:141) *)
Definition to_long (x : Qc) : nat := Z.to_nat (Qfloor (this x)).

(** categorical.py:243-247 *)
Definition picks {A} (d : A) (is : list nat) (r : list A) : list A := map (fun i => nth i r d) is.

(** binary.py:42-62, categorical.py:224-247, continuous.py:41-56, ordinal.py:124-146, poisson.py:64-84 loss. *)
Definition dist_loss (odds : nat -> list R) (t : dtype) (X : data) (Z : list (list R)) : res R :=
  let i := dt_idx t in
  let xz := combine (rows X) Z in
  match dt_kind t with
  | Cont => Ok (0.5 / INR (List.length (rows X)) * SklModel.rsum (map (fun p => (nth i (snd p) 0 - realq (nth i (fst p) 0%Qc)) ^ 2) xz))%R
  | Bin => Ok (rmean (map (fun p => bce_logits (nth i (snd p) 0%R) (realq (nth i (fst p) 0%Qc))) xz))
  | Poiss => Ok (rmean (map (fun p => poisson_nll (nth i (snd p) 0%R) (realq (nth i (fst p) 0%Qc))) xz))
  | Cat => do ls <- mapM (fun p => cross_entropy (picks 0%R (dt_group t) (snd p)) (argmax (picks 0%Qc (dt_group t) (fst p)))) xz; Ok (rmean ls)
  | Ord => do ls <- mapM (fun p => do ps <- get_probs (odds i) (nth i (snd p) 0%R);
                                   match nth_error ps (to_long (nth i (fst p) 0%Qc)) with Some q => Ok (- ln q)%R | None => Err RuntimeError end) xz;
           Ok (rmean ls)
  end.

(** core.py:374-377: the sum over the distribution types *)
Definition total_loss (odds : nat -> list R) (dts : list dtype) (X : data) (Z : list (list R)) : res R :=
  do ls <- mapM (fun t => dist_loss odds t X Z) dts; Ok (SklModel.rsum ls).

(** The positions of the weights (not the biases) of the local layers in the vector of parameters
    (pytorch/core.py:477-478) *)
Fixpoint layer_weights (d : nat) (use_bias : bool) (off : nat) (ls : list (nat * nat)) : list nat :=
  match ls with [] => [] | io :: r => seq off (d * fst io * snd io) ++ layer_weights d use_bias (off + n_layer d use_bias io) r end.

(** core.py:455-464 _l1_reg *)
Definition l1_reg (d m1 : nat) (v : list Qc) : R :=
  (rmean (map (fun k => Rabs (realq (nth k v 0%Qc))) (seq 0 (n_weights d m1))) * INR d)%R.
(** core.py:466-484 _l2_reg *)
Definition l2_reg (d : nat) (use_bias : bool) (dims : list nat) (v : list Qc) : R :=
  let m1 := nth 1 dims 0 in
  let ks := seq 0 (n_weights d m1) ++ layer_weights d use_bias (n_weights d m1 + n_bias use_bias (d * m1)) (net_layers dims) in
  (SklModel.rsum (map (fun k => realq (nth k v 0%Qc) ^ 2) ks) / INR (List.length ks) * INR d)%R.

(** core.py:356-389 _func: the objective without its gradient, which is torch's. *)
Definition torch_func (act : activation) (use_bias : bool) (dims : list nat) (dts : list dtype) (odds : nat -> list R) (X : data)
  (lasso_beta ridge_beta rho alpha : R) (v : list Qc) : res R :=
  let d := width X in
  let Z := map (fun r => map realq (forward act use_bias dims v r)) (rows X) in
  let h := poly_penalty (h_size dts) (fun i j => realq (h_matrix dts d (nth 1 dims 0) v i j)) in
  do loss <- total_loss odds dts X Z;
  Ok (loss + (0.5 * rho * h * h + alpha * h) + 0.5 * ridge_beta * l2_reg d use_bias dims v + lasso_beta * l1_reg d (nth 1 dims 0%nat) v)%R.
