(** * PropsCausal: properties C78-C82 (what observations and interventions change). *)
From Coq Require Import List Bool Arith ZArith Lia String QArith Qcanon Permutation Relations.
From Verif Require Import Base QcX Digraph BbnModel Kruskal InferModel InferSpec InferEngine InferOps InferMain InferThms InferCheck InferWit CausalCore CausalThms CausalDo CausalSep CausalApi PropsInfer.
Import ListNotations.
Local Open Scope string_scope.
Local Open Scope Qc_scope.
Local Open Scope list_scope.

Definition shown_after (bn : bnet) (v : string) (a : ivarg) (obs : list (string * label)) : option (list (string * list (label * Q))) :=
  match engine_new bn with
  | Ok e => match do_intervention e v a with
            | (e', Ok _) => match engine_query ids e' obs with
                            | Ok r => Some (map (fun vd => (fst vd, map (fun sp => (fst sp, this (snd sp))) (snd vd))) r)
                            | Err _ => None
                            end
            | _ => None
            end
  | Err _ => None
  end.
Definition told (o : option (list (string * list (label * Q)))) (u : string) : option (list (label * Q)) :=
  match o with Some r => dget String.eqb r u | None => None end.

Example triangle_good : good_bn triangle.
Proof. apply good_bn_sound. vm_compute. reflexivity. Qed.
Example chain_good : good_bn chain.
Proof. apply good_bn_sound. vm_compute. reflexivity. Qed.

(** ** C78 *)

(** [path (parent_arrows N) v u]: [u] is a descendant of [v]. *)
Theorem C78_nondescendants : forall bn ops e past v arg e' sc sc' obs r r', good_bn bn -> Forall op_ok ops -> reached bn ops e past -> arg_dict arg ->
  do_intervention e v arg = (e', Ok tt) -> good_sched sc -> good_sched sc' -> valid_obs (net_of bn) obs ->
  engine_query sc e obs = Ok r -> engine_query sc' e' obs = Ok r' ->
  (forall t, In t (map fst obs) -> t <> v /\ ~ path (parent_arrows (net_of bn)) v t) ->
  forall u s, u <> v -> ~ path (parent_arrows (net_of bn)) v u -> answer r' u s = answer r u s.
Proof. exact api_unaffected. Qed.
Print Assumptions C78_nondescendants.

(** A is a cause of B: it keeps its distribution; the descendant C does not.  Observing B does change A. *)
Example triangle_nondescendant :
  told (shown_after triangle "B" (IvInt 1) []) "A" = told (shown ids triangle []) "A" /\
  told (shown_after triangle "B" (IvInt 1) []) "C" <> told (shown ids triangle []) "C" /\
  told (shown ids triangle [("B", LInt 1)]) "A" <> told (shown ids triangle []) "A" /\
  ~ path (parent_arrows (net_of triangle)) "B" "A".
Proof.
  split; [vm_compute; reflexivity|]. split; [vm_compute; discriminate|]. split; [vm_compute; discriminate|].
  assert (G : forall x y, path (parent_arrows (net_of triangle)) x y -> y <> "A").
  { induction 1 as [x y H|x y z H P IH]; auto. vm_compute in H. destruct H as [[= <- <-]|[[= <- <-]|[[= <- <-]|[]]]]; discriminate. }
  intros P. apply (G _ _ P). auto.
Qed.

(** ** C79 *)

(** [prob c s xs] is the entry of the CPD for state [s] and parent states [xs]; [at_ obs p] the observed state of [p]. *)
Theorem C79_local_markov : forall bn e sc obs r v c s, good_bn bn -> engine_new bn = Ok e -> good_sched sc -> valid_obs (net_of bn) obs -> engine_query sc e obs = Ok r ->
  In (v, c) (net_of bn) -> In s (states c) -> incl (parents c) (map fst obs) ->
  (forall t, In t (map fst obs) -> t <> v /\ ~ path (parent_arrows (net_of bn)) v t) ->
  Pr (net_of bn) (observed obs) <> 0 ->
  answer r v s = Some (prob c s (map (fun p => at_ obs p) (parents c))).
Proof. exact api_markov. Qed.
Print Assumptions C79_local_markov.

(** A -> B -> C: B given its parent is the entry of its CPD.  Given its child as well it is not. *)
Example chain_markov :
  told (shown ids chain [("A", LInt 1)]) "B" = Some [(LInt 0, 1 # 3); (LInt 1, 2 # 3)] /\
  told (shown ids chain [("A", LInt 1); ("C", LInt 0)]) "B" <> Some [(LInt 0, 1 # 3); (LInt 1, 2 # 3)] /\
  told (shown ids chain [("A", LInt 0); ("B", LInt 1)]) "C" = Some [(LInt 0, 1 # 3); (LInt 1, 2 # 3)].
Proof. split; [|split]; vm_compute; [reflexivity|discriminate|reflexivity]. Qed.

(** ** C80 *)

(** [all_on arg x]: [arg] is the state [x] itself, or a dictionary that gives it weight one. *)
Theorem C80_doing_is_seeing : forall bn e e' v c arg sc sc' obs x r r' u s, good_bn bn -> engine_new bn = Ok e -> arg_dict arg ->
  do_intervention e v arg = (e', Ok tt) -> In (v, c) (net_of bn) ->
  good_sched sc -> good_sched sc' -> valid_obs (net_of bn) ((v, x) :: obs) ->
  match arg with IvInt z => x = LInt z | IvDict d => In (x, 1) d | IvOther => False end ->
  incl (parents c) (map fst obs) -> engine_query sc e ((v, x) :: obs) = Ok r -> engine_query sc' e' obs = Ok r' ->
  Pr (net_of bn) (observed ((v, x) :: obs)) <> 0 -> answer r' u s = answer r u s.
Proof. intros bn e e' v c arg sc sc' obs x r r' u s G E AD ED I. exact (api_do_is_see bn e e' v c arg G E AD ED I sc sc' obs x r r' u s). Qed.
Print Assumptions C80_doing_is_seeing.

(** With the parent of B observed doing is seeing; without, it is not; A has no parents. *)
Example triangle_do_see :
  told (shown_after triangle "B" (IvInt 1) [("A", LInt 0)]) "C" = told (shown ids triangle [("B", LInt 1); ("A", LInt 0)]) "C" /\
  told (shown_after triangle "B" (IvInt 1) []) "C" <> told (shown ids triangle [("B", LInt 1)]) "C" /\
  shown_after triangle "A" (IvDict [(LInt 0, 0); (LInt 1, 1)]) [] = shown ids triangle [("A", LInt 1)] /\
  shown ids triangle [("A", LInt 1)] <> None.
Proof. split; [|split; [|split]]; vm_compute; [reflexivity|discriminate|reflexivity|discriminate]. Qed.

(** ** C81 *)

(** [settings N ps]: every way to give each of [ps] one of its states. *)
Theorem C81_adjustment : forall bn e e' v c arg sc r, good_bn bn -> engine_new bn = Ok e -> arg_dict arg ->
  do_intervention e v arg = (e', Ok tt) -> In (v, c) (net_of bn) -> good_sched sc -> engine_query sc e' [] = Ok r ->
  exists d, dist_arg (net_of bn) v arg d /\
    ((forall x o, In x (states c) -> weight_in d x <> 0 -> In o (settings (net_of bn) (parents c)) ->
        Pr (net_of bn) (observed o) <> 0 -> Pr (net_of bn) (observed ((v, x) :: o)) <> 0) ->
     forall u s, In u (vars (net_of bn)) -> In s (states_of (net_of bn) u) ->
       answer r u s = Some (Qsum (fun x => weight_in d x *
         Qsum (fun o => Pr (net_of bn) (observed o) * cond_prob (net_of bn) ((v, x) :: o) u s) (settings (net_of bn) (parents c))) (states c))).
Proof. intros bn e e' v c arg sc r G E AD ED I. exact (api_adjust bn e e' v c arg G E AD ED I sc r). Qed.
Print Assumptions C81_adjustment.

(** P(C = 0 | do(B = 1)) = 1/4 * 1/3 + 3/4 * 1 = 5/6, though P(C = 0 | B = 1) = 13/15. *)
Example triangle_adjust :
  told (shown_after triangle "B" (IvInt 1) []) "C" = Some [(LInt 0, 5 # 6); (LInt 1, 1 # 6)] /\
  told (shown ids triangle [("B", LInt 1)]) "C" = Some [(LInt 0, 13 # 15); (LInt 1, 2 # 15)] /\
  settings (net_of triangle) ["A"] = [[("A", LInt 0)]; [("A", LInt 1)]] /\
  forallb (fun x => forallb (fun o => negb (Qc_eq_bool (Pr (net_of triangle) (observed (("B", x) :: o))) 0)) (settings (net_of triangle) ["A"])) [LInt 0; LInt 1] = true.
Proof. split; [|split; [|split]]; vm_compute; reflexivity. Qed.

(** ** C82 *)

(** [linked N xs Z u t]: a chain from [u] to [t] outside [Z] in the moral graph of [xs] and their ancestors:
    neighbours are parent and child, or parents of one child. *)
Theorem C82_irrelevant_evidence : forall bn e sc sc' obs extra r r' u s, good_bn bn -> engine_new bn = Ok e -> good_sched sc -> good_sched sc' ->
  valid_obs (net_of bn) (extra ++ obs) -> engine_query sc e obs = Ok r -> engine_query sc' e (extra ++ obs) = Ok r' ->
  ~ In u (map fst obs) ->
  (forall t, In t (map fst extra) -> ~ linked (net_of bn) (u :: map fst extra ++ map fst obs) (map fst obs) u t) ->
  Pr (net_of bn) (observed (extra ++ obs)) <> 0 ->
  answer r' u s = answer r u s.
Proof. exact api_separated. Qed.
Print Assumptions C82_irrelevant_evidence.

(** A -> B -> C: A says nothing about C once B is known. *)
Example chain_separated : ~ linked (net_of chain) ["C"; "A"; "B"] ["B"] "C" "A".
Proof.
  assert (G : forall x y, linked (net_of chain) ["C"; "A"; "B"] ["B"] x y -> x = "C" -> y = "C").
  { unfold linked. induction 1 as [x y [(_ & _ & M) NB]| |]; auto. intros ->. exfalso.
    destruct M as [M|[M|(z & _ & M & _)]]; vm_compute in M; repeat destruct M as [[= <- <-]|M]; try destruct M; try discriminate; try congruence.
    apply NB. injection H as <-. left; auto. }
  intros L. specialize (G _ _ L eq_refl). discriminate.
Qed.
Example chain_irrelevant :
  told (shown ids chain [("A", LInt 0); ("B", LInt 1)]) "C" = told (shown ids chain [("B", LInt 1)]) "C" /\
  told (shown ids chain [("A", LInt 0)]) "C" <> told (shown ids chain []) "C".
Proof. split; vm_compute; [reflexivity|discriminate]. Qed.
(** A -> C <- B: A and B are independent until C is seen. *)
Example collider_separated : ~ linked (net_of collider) ["A"; "B"] [] "A" "B".
Proof.
  assert (R : forall z, relevant (net_of collider) ["A"; "B"] z -> z = "A" \/ z = "B").
  { intros z (y & Hy & [->|P]); [destruct Hy as [<-|[<-|[]]]; auto|]. exfalso.
    assert (Q : y <> "A" /\ y <> "B"); [|destruct Hy as [<-|[<-|[]]]; tauto].
    clear Hy. induction P as [x y H|]; auto. vm_compute in H. repeat destruct H as [[= <- <-]|H]; try destruct H; split; discriminate. }
  assert (G : forall x y, linked (net_of collider) ["A"; "B"] [] x y -> x = y).
  { unfold linked. induction 1 as [x y [(Rx & Ry & M) _]| |]; auto; [|congruence]. exfalso.
    destruct M as [M|[M|(z & Rz & M & _)]]; [apply R in Ry|apply R in Rx|apply R in Rz]; vm_compute in M; repeat destruct M as [[= <- <-]|M]; try destruct M;
      match goal with Q : _ \/ _ |- _ => destruct Q; discriminate end. }
  intros L. specialize (G _ _ L). discriminate.
Qed.
Example collider_irrelevant :
  told (shown ids collider [("B", LStr "x")]) "A" = told (shown ids collider []) "A" /\
  told (shown ids collider [("B", LStr "x"); ("C", LInt 0)]) "A" <> told (shown ids collider [("C", LInt 0)]) "A".
Proof. split; vm_compute; [reflexivity|discriminate]. Qed.
