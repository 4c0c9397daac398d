(** * DsepSpec: d-separation and the back-door criterion, as in the textbooks (Pearl, Causality, 1.2.3 and 3.3.1). *)
From Coq Require Import List Bool String.
From Verif Require Import Base Digraph InferSpec.
Import ListNotations.
Local Open Scope list_scope.

Definition arrow (N : net) (x y : string) : Prop := In (x, y) (parent_arrows N).

(** [b] lies between [a] and [c] on a trail.  With both arrows into [b] the trail goes on if [b] or one of its
    descendants is observed, otherwise if [b] is not observed. *)
Definition passes (N : net) (Z : list string) (a b c : string) : Prop :=
  (arrow N a b /\ arrow N c b -> exists z, In z Z /\ (z = b \/ path (parent_arrows N) b z)) /\
  (~ (arrow N a b /\ arrow N c b) -> ~ In b Z).

(** Each variable is joined to the next by an arrow in either direction, and the trail passes all inner ones. *)
Fixpoint active (N : net) (Z : list string) (l : list string) : Prop :=
  match l with
  | a :: ((b :: r) as rest) =>
      (arrow N a b \/ arrow N b a) /\ match r with c :: _ => passes N Z a b c | [] => True end /\ active N Z rest
  | _ => True
  end.

(** A trail from [x] to [y] visits no variable twice. *)
Definition trail (l : list string) (x y : string) : Prop := NoDup l /\ hd_error l = Some x /\ last l x = y.

(** All trails are blocked. *)
Definition d_separated (N : net) (Z : list string) (x y : string) : Prop := forall l, trail l x y -> ~ active N Z l.

(** [Z] meets the back-door criterion for the effect of [v] on [u]: it has no descendant of [v] and blocks every
    trail between [v] and [u] that has an arrow into [v]. *)
Definition back_door (N : net) (Z : list string) (v u : string) : Prop :=
  (forall z, In z Z -> z <> v /\ ~ path (parent_arrows N) v z) /\
  (forall b l, trail (v :: b :: l) v u -> arrow N b v -> ~ active N Z (v :: b :: l)).
