(** * TorchSpec: what a user expects of the torch version of NOTEARS, independent of how it is computed. *)
From Coq Require Import List Bool Arith ZArith Lia String QArith Qcanon Permutation.
From Verif Require Import Base Digraph SmModel QcX NotearsModel NotearsThms TorchModel.
Import ListNotations.
Local Open Scope string_scope.
Local Open Scope list_scope.
Local Open Scope nat_scope.

(** Arrays are rectangular. *)
Definition rectangular (X : mat) : Prop := Forall (fun r => List.length r = m_cols X) (m_rows X).

(** The values of a column of finite numbers. *)
Definition values (X : mat) (i : nat) : list Qc := map (fun r => finite_part (nth i r NaN)) (m_rows X).

(** A categorical variable takes as many columns as it has values, any other variable takes one. *)
Definition n_columns (k : kind) (vals : list Qc) : nat :=
  match k with Cat => List.length (nodup Qc_eq_dec vals) | _ => 1 end.

(** The first column of a variable stays where it is; the others are put at the end of the [w] columns there
    are, in the order of the schema. *)
Fixpoint layout (w : nat) (vs : list (nat * nat)) : list (nat * list nat) :=
  match vs with
  | [] => []
  | (a, n) :: rest => (a, a :: seq w (n - 1)) :: layout (w + (n - 1)) rest
  end.

Definition columns_of (L : list (nat * list nat)) (a : nat) : list nat :=
  match dget Nat.eqb L a with Some c => c | None => [a] end.

(** The columns of every variable of the data. *)
Definition expanded (X : mat) (ks : list (nat * kind)) : list (nat * list nat) :=
  layout (m_cols X) (map (fun ik => (fst ik, n_columns (snd ik) (values X (fst ik)))) ks).

(** Changing the entries of one column. *)
Definition same_but (i : nat) (Y Z : list (list Qc)) : Prop :=
  Forall2 (fun r s => forall k, k <> i -> nth k r 0%Qc = nth k s 0%Qc) Y Z.

(** A gradient is zero for a column that the function does not depend on. *)
Definition gradient_local (grad : autograd) : Prop :=
  forall f Y i, (forall Z, same_but i Y Z -> f Z = f Y) -> forall r, In r (grad f Y) -> nth i r 0%Qc = 0%Qc.

(** ** The learned graph *)

(** Which entries are kept: all that are not zero and, if there is a threshold, not below it. *)
Definition survives (th : option Qc) (x : Qc) : Prop := x <> 0%Qc /\ forall t, th = Some t -> (t <= Qcabs x)%Qc.

(** A graph on the nodes [name 0], ..., [name (d - 1)] with the kept entries as edges; each edge has origin,
    weight and mean effect and no other attribute. *)
Definition effects_graph (g : graph) (d : nat) (name : nat -> label) (w m : nat -> nat -> Qc) (keep : Qc -> Prop) : Prop :=
  Permutation (nodes g) (map name (seq 0 d)) /\ NoDup (edges g) /\
  (forall u v, In (u, v) (edges g) <-> exists i j, i < d /\ j < d /\ u = name i /\ v = name j /\ keep (w i j)) /\
  (forall i j, i < d -> j < d -> keep (w i j) -> exists a, edge_attrs g (name i) (name j) = Some a /\
     forall k, dget String.eqb a k = dget String.eqb [("origin", AStr "learned"); ("weight", ANum (w i j)); ("mean_effect", ANum (m i j))] k).

(** The same for a graph whose edges have origin and weight only. *)
Definition weights_graph (g : graph) (d : nat) (name : nat -> label) (origin : string) (w : nat -> nat -> Qc) (keep : Qc -> Prop) : Prop :=
  Permutation (nodes g) (map name (seq 0 d)) /\ NoDup (edges g) /\
  (forall u v, In (u, v) (edges g) <-> exists i j, i < d /\ j < d /\ u = name i /\ v = name j /\ keep (w i j)) /\
  (forall i j, i < d -> j < d -> keep (w i j) -> exists a, edge_attrs g (name i) (name j) = Some a /\
     forall k, dget String.eqb a k = dget String.eqb [("origin", AStr origin); ("weight", ANum (w i j))] k).

(** The sum of the entries between two groups of columns. *)
Definition block_sum (w : nat -> nat -> Qc) (ca cb : list nat) : Qc := Qsum (fun x => Qsum (fun y => w x y) cb) ca.

(** ** Names of expanded columns *)

(** The first column of a variable has the name of the variable; the others have it followed by 1, 2, ... *)
Definition category_name (c : label) (k : nat) : label := match k with 0 => c | _ => LStr (NetModel.str_of c ++ Names.dec k) end.

(** [u] is the name of column [x]. *)
Definition has_name (cols : list label) (L : list (nat * list nat)) (x : nat) (u : label) : Prop :=
  exists a k, a < List.length cols /\ nth_error (columns_of L a) k = Some x /\ u = category_name (nth a cols (LInt 0)) k.

(** No column name is another one followed by digits. *)
Definition no_suffixes (cols : list label) : Prop :=
  forall c c' ds, In c cols -> In c' cols -> c <> c' -> Names.all_chars Names.is_digit ds = true -> NetModel.str_of c' <> (NetModel.str_of c ++ ds)%string.
