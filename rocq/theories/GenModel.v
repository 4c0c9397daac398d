(** * GenModel: model of generate_structure, causalnex/structure/data_generators/core.py:60-135.

    Random draws are arguments: what numpy.random returns is arbitrary within the range of the call.  Floats
    are rational numbers.  The expected degree is a statement about distributions and is not modelled. *)
From Coq Require Import List Bool Arith ZArith Lia String QArith Qround Qcanon.
From Verif Require Import Base SmModel QcX NotearsModel TorchModel.
Import ListNotations.
Local Open Scope string_scope.
Local Open Scope list_scope.
Local Open Scope nat_scope.

(** The draws of one call: np.random.rand for the edges and for the signs, the positions that
    np.random.choice takes from the bag, the rows of the permuted identity matrix, and the uniform numbers
    (between 0 and 1) of the weights. (core.py:102, 110, 126, 130-131) *)
Record draws := mkDraws { dr_edge : qmat; dr_choice : nat -> nat -> nat; dr_perm : list nat; dr_weight : qmat; dr_sign : qmat }.

(** core.py:131 *)
Definition half : Qc := Q2Qc (1 # 2).

(** [round(x)]: to the nearest integer, ties to the even one. (core.py:106) *)
Definition round_even (q : Qc) : Z :=
  let f := Qfloor (this q) in
  let r := (q - Q2Qc (inject_Z f))%Qc in
  if qlt r half then f else if qlt half r then (f + 1)%Z else if Z.even f then f else (f + 1)%Z.

(** [np.tril(M, k=-1)] (core.py:103, 117) *)
Definition tril (M : qmat) : qmat := fun i j => if j <? i then M i j else 0%Qc.
(** core.py:102, 133 *)
Definition indicator (b : bool) : Qc := if b then 1%Qc else 0%Qc.

(** core.py:100-103 *)
Definition erdos_renyi (rn : draws) (n : nat) (degree : Qc) : qmat :=
  tril (fun i j => indicator (qlt (dr_edge rn i j) (degree / Q2Qc (inject_Z (Z.of_nat n - 1))))%Qc).

(** [np.random.choice(bag, size=m)] (core.py:110) *)
Definition choice (rn : draws) (i m : nat) (bag : list nat) : list nat :=
  map (fun k => nth (dr_choice rn i k mod List.length bag) bag 0) (seq 0 m).

(** core.py:112 *)
Definition upd (F : qmat) (i j : nat) (v : Qc) : qmat := fun a b => if (a =? i) && (b =? j) then v else F a b.

(** core.py:105-114; [m] is not negative, numpy rejects a negative size. *)
Definition barabasi_albert (rn : draws) (n m : nat) : qmat :=
  fst (fold_left (fun (s : qmat * list nat) i =>
         let dest := choice rn i m (snd s) in
         (fold_left (fun F j => upd F i j 1%Qc) dest (fst s), snd s ++ [i] ++ dest))
       (seq 1 (n - 1)) (fun _ _ => 0%Qc, [0])).

(** core.py:127 *)
Definition matmul (n : nat) (A B : qmat) : qmat := fun i j => Qsum (fun k => A i k * B k j)%Qc (seq 0 n).
(** core.py:127 *)
Definition transpose (A : qmat) : qmat := fun i j => A j i.

(** core.py:88-135 *)
Definition generate_structure (rn : draws) (num_nodes : Z) (degree : Qc) (graph_type : string) (w_min w_max : Qc) : res graph :=
  if (num_nodes <? 2)%Z then Err ValueError
  else
    let n := Z.to_nat num_nodes in
    let lo := Qcabs w_min in
    let hi := Qcabs w_max in
    if qlt hi lo then Err ValueError
    else
      do flags <-
        (if String.eqb graph_type "erdos-renyi" then Ok (erdos_renyi rn n degree)
         else if String.eqb graph_type "barabasi-albert" then
           let m := round_even (degree / Q2Qc 2)%Qc in
           if (m <? 0)%Z then Err ValueError else Ok (barabasi_albert rn n (Z.to_nat m))
         else if String.eqb graph_type "full" then Ok (tril (fun _ _ => 1%Qc))
         else Err ValueError);
      let perms : qmat := fun i a => indicator (nth i (dr_perm rn) n =? a) in
      let flags' := matmul n (matmul n (transpose perms) flags) perms in
      let weights : qmat := fun i j =>
        let w := (lo + (hi - lo) * dr_weight rn i j)%Qc in if qlt (dr_sign rn i j) half then (w * - (1))%Qc else w in
      sm_of_matrix n (flatten n (fun i j => (indicator (qnz (flags' i j)) * weights i j)%Qc)).
