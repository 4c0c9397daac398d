(** * PropsCond: property C128 (networks built from conditional tables). *)
From Coq Require Import List Bool Arith ZArith Lia String QArith Qcanon Permutation.
From Verif Require Import Base QcX BbnModel Kruskal InferModel InferSpec InferEngine InferMain InferCheck InferWit CondModel CondSpec CondProofs.
Import ListNotations.
Local Open Scope Qc_scope.
Local Open Scope list_scope.
Local Open Scope string_scope.

Lemma results_In (m : list ((string * label) * Qc)) (N : net) (f : string -> label -> Qc) : NoDup (map fst m) ->
  (forall v s, dget pair_eqb m (v, s) = if (smem v (vars N) && lmem s (states_of N v))%bool then Some (f v s) else None) ->
  forall v s p, In ((v, s), p) m <-> In v (vars N) /\ In s (states_of N v) /\ p = f v s.
Proof.
  intros ND H v s p. specialize (H v s). split.
  - intros Hin. apply (In_dget _ BbnTables.pair_eqb_spec) in Hin; [|exact ND].
    pose proof (eq_trans (eq_sym Hin) H) as E.
    destruct (smem v (vars N)) eqn:E1; [|discriminate]. destruct (lmem s (states_of N v)) eqn:E2; [|discriminate].
    cbn [andb] in E. injection E as ->. apply smem_In in E1. apply lmem_In in E2. auto.
  - intros (Hv & Hs & ->). apply smem_In in Hv. apply lmem_In in Hs. rewrite Hv, Hs in H. cbn [andb] in H.
    apply (dget_In _ BbnTables.pair_eqb_spec). exact H.
Qed.

(** The answers of a network built from tables are the conditional probabilities of the network the
    tables describe: for every variable and each of its states, and nothing else. *)
Theorem C128_tables : forall order conds, (forall v l, Permutation (order v l) l) ->
  alike conds -> covering conds -> shape_ok (described conds) -> columns_sum_1 (described conds) -> joined (described conds) ->
  exists b, build_bbn_from_conditionals order conds = Ok b /\
    forall sc obs, good_sched sc -> ~ In "self" (map fst obs) -> valid_obs (described conds) obs ->
      exists m, query_by_name sc b obs = Ok m /\ NoDup (map fst m) /\
        forall v s p, In ((v, s), p) m <->
          In v (vars (described conds)) /\ In s (states_of (described conds) v) /\ p = cond_prob (described conds) obs v s.
Proof.
  intros order conds OP AL CV SO CS J.
  destruct (tables_query order OP conds AL SO CV J ids ids_good) as (b & Eb & Mass & _). exists b. split; [exact Eb|].
  intros sc obs GS NS VO.
  destruct (tables_query order OP conds AL SO CV J sc GS) as (b' & Eb' & _ & Q).
  rewrite Eb in Eb'. injection Eb' as <-. destruct (Q obs NS VO) as (m & Em & ND & Hm).
  exists m. split; [exact Em|]. split; [exact ND|]. intros v s p.
  rewrite (results_In m (described conds) _ ND Hm v s p).
  rewrite (expected_cond (described conds) obs v s SO (Mass CS)). reflexivity.
Qed.
Print Assumptions C128_tables.

(** Rows that do not sum to one are used as they are: under evidence of positive weight the answers are
    quotients of sums of products of the entries. *)
Theorem C128_weights : forall order conds, (forall v l, Permutation (order v l) l) ->
  alike conds -> covering conds -> shape_ok (described conds) -> joined (described conds) ->
  exists b, build_bbn_from_conditionals order conds = Ok b /\
    forall sc obs, good_sched sc -> ~ In "self" (map fst obs) -> valid_obs (described conds) obs ->
      obs <> [] -> Pr (described conds) (observed obs) <> 0 ->
      exists m, query_by_name sc b obs = Ok m /\ NoDup (map fst m) /\
        forall v s p, In ((v, s), p) m <->
          In v (vars (described conds)) /\ In s (states_of (described conds) v) /\
          p = Pr_and (described conds) obs v s / Pr (described conds) (observed obs).
Proof.
  intros order conds OP AL CV SO J.
  destruct (tables_query order OP conds AL SO CV J ids ids_good) as (b & Eb & _). exists b. split; [exact Eb|].
  intros sc obs GS NS VO Hne Hpos.
  destruct (tables_query order OP conds AL SO CV J sc GS) as (b' & Eb' & _ & Q).
  rewrite Eb in Eb'. injection Eb' as <-. destruct (Q obs NS VO) as (m & Em & ND & Hm).
  exists m. split; [exact Em|]. split; [exact ND|]. intros v s p.
  rewrite (results_In m (described conds) _ ND Hm v s p).
  unfold expected. destruct obs as [|o obs]; [congruence|].
  destruct (Qc_eq_bool_spec (Pr (described conds) (observed (o :: obs))) 0); [contradiction|]. reflexivity.
Qed.
Print Assumptions C128_weights.

(** A table without a row for some combination of states of the parents is never answered from. *)
Theorem C128_missing : forall order conds sc b v rows xs obs m, (forall v l, Permutation (order v l) l) ->
  alike conds -> shape_ok (described conds) -> In (v, rows) conds ->
  Forall2 (fun p x => In x (states_of (described conds) p)) (named rows) xs ->
  (forall r, In r rows -> is_for rows xs r = false) ->
  build_bbn_from_conditionals order conds = Ok b -> query_by_name sc b obs <> Ok m.
Proof. intros order conds sc b v rows xs obs m OP AL SO. apply (tables_missing order OP conds AL SO). Qed.
Print Assumptions C128_missing.

(** ** Examples *)

(** "b" -> "c" <- "A"; the rows of "c" name the parents and list the states in changing orders. *)
Definition lights : conditionals :=
  [("c", [([("b", LStr "x"); ("A", LInt 0)], [(LInt 0, q 1 2); (LInt 1, q 1 2); (LInt 2, 0)]);
          ([("A", LInt 0); ("b", LStr "y")], [(LInt 2, q 1 2); (LInt 1, q 1 2); (LInt 0, 0)]);
          ([("A", LInt 1); ("b", LStr "y")], [(LInt 0, 1); (LInt 1, 0); (LInt 2, 0)]);
          ([("b", LStr "x"); ("A", LInt 1)], [(LInt 1, q 1 5); (LInt 0, q 1 5); (LInt 2, q 3 5)])]);
   ("A", [([], [(LInt 0, q 1 4); (LInt 1, q 3 4)])]);
   ("b", [([], [(LStr "x", q 1 3); (LStr "y", q 2 3)])])].

Definition backwards : string -> list label -> list label := fun _ l => rev l.

Ltac perm := repeat match goal with
  | |- Permutation [] [] => constructor
  | |- Permutation (?x :: _) (?x :: _) => constructor
  | |- Permutation (?x :: ?l) (?y :: ?x :: ?l') => apply (Permutation_cons_app [y] l' x); cbn [app]
  | |- Permutation (?x :: ?l) (?y :: ?z :: ?x :: ?l') => apply (Permutation_cons_app [y; z] l' x); cbn [app]
  end.

Lemma lights_alike : alike lights.
Proof.
  intros v rows [[= <- <-]|[[= <- <-]|[[= <- <-]|[]]]]; (split; [discriminate|]); intros r Hr; cbn [In] in Hr;
    repeat (destruct Hr as [<-|Hr]; [cbn [fst snd map named listed]; split; perm|]); destruct Hr.
Qed.

Lemma lights_covering : covering lights.
Proof.
  intros v rows xs [[= <- <-]|[[= <- <-]|[[= <- <-]|[]]]] F; cbn [named map fst] in F.
  - inversion F as [|p1 x1 ps1 xs1 H1 F1]; subst. inversion F1 as [|p2 x2 ps2 xs2 H2 F2]; subst. inversion F2; subst.
    cbn in H1, H2. destruct H1 as [<-|[<-|[]]], H2 as [<-|[<-|[]]]; eexists; vm_compute; reflexivity.
  - inversion F; subst. eexists; vm_compute; reflexivity.
  - inversion F; subst. eexists; vm_compute; reflexivity.
Qed.

Example C128_met : (forall v l, Permutation (backwards v l) l) /\ alike lights /\ covering lights /\ shape_ok (described lights) /\
  columns_sum_1 (described lights) /\ joined (described lights) /\ valid_obs (described lights) [("c", LInt 0)] /\
  Pr (described lights) (observed [("c", LInt 0)]) <> 0.
Proof.
  split; [intros v l; symmetry; apply Permutation_rev|]. split; [exact lights_alike|]. split; [exact lights_covering|].
  split; [apply shape_okb_sound; vm_compute; reflexivity|]. split; [apply columns_b_sound; vm_compute; reflexivity|].
  split; [apply joined_b_sound; vm_compute; reflexivity|]. split.
  - split; [repeat constructor; intros []|]. intros v x [[= <- <-]|[]]. vm_compute. auto.
  - intros E. discriminate (f_equal this E).
Qed.

(** The numbers are those of [collider_run]. *)
Definition answered (order : string -> list label -> list label) (sc : sched) (conds : conditionals) (obs : list (string * label)) : option (list ((string * label) * Q)) :=
  match build_bbn_from_conditionals order conds with
  | Ok b => match query_by_name sc b obs with
            | Ok m => Some (map (fun kp => (fst kp, this (snd kp))) m)
            | Err _ => None
            end
  | Err _ => None
  end.

Example C128_run :
  answered backwards ids lights [("c", LInt 0)] =
    Some [(("A", LInt 1), 66 # 71); (("A", LInt 0), 5 # 71); (("b", LStr "y"), 60 # 71); (("b", LStr "x"), 11 # 71);
          (("c", LInt 2), 0%Q); (("c", LInt 0), 1%Q); (("c", LInt 1), 0%Q)] /\
  build_bbn_from_conditionals backwards [("a", [])] = Err RuntimeError.
Proof. split; vm_compute; reflexivity. Qed.

(** Without the row for A = 1, b = x: a KeyError. *)
Definition dim : conditionals :=
  map (fun vr => (fst vr, if String.eqb (fst vr) "c" then firstn 3 (snd vr) else snd vr)) lights.

Example C128_missing_met : alike dim /\ shape_ok (described dim) /\
  (exists rows, In ("c", rows) dim /\ named rows = ["b"; "A"] /\ forall r, In r rows -> is_for rows [LStr "x"; LInt 1] r = false) /\
  match build_bbn_from_conditionals backwards dim with
  | Ok b => query_by_name ids b [("c", LInt 0)] = Err KeyError
  | Err _ => False
  end.
Proof.
  split.
  { intros v rows [[= <- <-]|[[= <- <-]|[[= <- <-]|[]]]]; (split; [discriminate|]); intros r Hr; cbn [In] in Hr;
    repeat (destruct Hr as [<-|Hr]; [cbn [fst snd map named listed]; split; perm|]); destruct Hr. }
  split; [apply shape_okb_sound; vm_compute; reflexivity|]. split.
  - eexists. split; [left; reflexivity|]. split; [reflexivity|]. intros r Hr. cbn in Hr.
    repeat (destruct Hr as [<-|Hr]; [vm_compute; reflexivity|]). destruct Hr.
  - vm_compute. reflexivity.
Qed.
