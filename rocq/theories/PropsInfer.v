(** * PropsInfer: properties C01-C04, C07-C11 and C53 (InferenceEngine). *)
From Coq Require Import List Bool Arith ZArith Lia String QArith Qcanon Permutation Relations.
From Verif Require Import Base QcX Digraph BbnModel Kruskal InferModel InferSpec InferEngine InferOps InferMain InferThms InferCheck SampleModel InferWit.
Import ListNotations.
Local Open Scope string_scope.
Local Open Scope Qc_scope.
Local Open Scope list_scope.

(** ** C01 *)

(** For CPDs whose columns are distributions. *)
Theorem C01_query_exact : forall bn sc obs, good_bn bn -> good_sched sc -> valid_obs (net_of bn) obs ->
  exists e r, engine_new bn = Ok e /\ engine_query sc e obs = Ok r /\ map fst r = vars (net_of bn) /\
    (forall v s, In v (vars (net_of bn)) -> In s (states_of (net_of bn) v) ->
       answer r v s = Some (cond_prob (net_of bn) obs v s)) /\
    (forall v s, ~ (In v (vars (net_of bn)) /\ In s (states_of (net_of bn) v)) -> answer r v s = None).
Proof. exact query_exact. Qed.
Print Assumptions C01_query_exact.

(** For every table with non-negative entries.  Without observations the engine returns the
    unnormalised sums; observations of total weight zero give zeros. *)
Theorem C01_query_exact_any_table : forall bn sc obs, good_shape bn -> good_sched sc -> valid_obs (net_of bn) obs ->
  exists e r, engine_new bn = Ok e /\ engine_query sc e obs = Ok r /\ map fst r = vars (net_of bn) /\
    (forall v s, In v (vars (net_of bn)) -> In s (states_of (net_of bn) v) ->
       answer r v s = Some (
         match obs with
         | [] => Pr_and (net_of bn) obs v s
         | _ => if Qc_eq_bool (Pr (net_of bn) (observed obs)) 0 then Pr_and (net_of bn) obs v s
                else Pr_and (net_of bn) obs v s / Pr (net_of bn) (observed obs)
         end)).
Proof. exact query_tables. Qed.
Print Assumptions C01_query_exact_any_table.

Example collider_good : good_bn collider.
Proof. apply good_bn_sound. vm_compute. reflexivity. Qed.
Example collider_obs : valid_obs (net_of collider) [("C", LInt 2); ("A", LInt 1)].
Proof.
  split.
  - apply (nodupb_sound _ String.eqb_spec). reflexivity.
  - intros v x [[= <- <-]|[[= <- <-]|[]]]; vm_compute; auto.
Qed.

(** Two set orders give the same numbers: P(B = x | C = 2, A = 1) = 1, P(B = x | C = 0) = 7/40. *)
Definition shown (sc : sched) (bn : bnet) (obs : list (string * label)) : option (list (string * list (label * Q))) :=
  match engine_new bn with
  | Ok e => match engine_query sc e obs with
            | Ok r => Some (map (fun vd => (fst vd, map (fun sp => (fst sp, this (snd sp))) (snd vd))) r)
            | Err _ => None
            end
  | Err _ => None
  end.
Example collider_run :
  shown ids collider [("C", LInt 0)] =
    Some [("A", [(LInt 0, 5 # 71); (LInt 1, 66 # 71)]); ("B", [(LStr "x", 11 # 71); (LStr "y", 60 # 71)]);
          ("C", [(LInt 0, 1%Q); (LInt 1, 0%Q); (LInt 2, 0%Q)])] /\
  shown revs collider [("C", LInt 0)] = shown ids collider [("C", LInt 0)].
Proof. split; vm_compute; reflexivity. Qed.

(** ** C02 *)
Theorem C02_distributions : forall bn sc obs, good_bn bn -> good_sched sc -> valid_obs (net_of bn) obs ->
  exists e r, engine_new bn = Ok e /\ engine_query sc e obs = Ok r /\ map fst r = vars (net_of bn) /\
    forall v d, In (v, d) r ->
      (forall s, In s (map fst d) <-> In s (states_of (net_of bn) v)) /\ NoDup (map fst d) /\
      (forall s p, In (s, p) d -> 0 <= p) /\
      (obs = [] \/ Pr (net_of bn) (observed obs) <> 0 -> Qsum snd d = 1) /\
      (obs <> [] -> Pr (net_of bn) (observed obs) = 0 -> forall s p, In (s, p) d -> p = 0) /\
      (Pr (net_of bn) (observed obs) <> 0 -> forall x, In (v, x) obs ->
         forall s p, In (s, p) d -> p = if label_eqb s x then 1 else 0).
Proof. exact new_query_dists. Qed.
Print Assumptions C02_distributions.

(** Observations of probability zero. *)
Example collider_zero :
  shown ids collider [("C", LInt 1); ("A", LInt 1); ("B", LStr "y")] =
    Some [("A", [(LInt 0, 0%Q); (LInt 1, 0%Q)]); ("B", [(LStr "x", 0%Q); (LStr "y", 0%Q)]);
          ("C", [(LInt 0, 0%Q); (LInt 1, 0%Q); (LInt 2, 0%Q)])].
Proof. vm_compute. reflexivity. Qed.

(** ** C03 *)
Theorem C03_no_internal_failure : forall bn sc obs, good_shape bn -> good_sched sc -> valid_obs (net_of bn) obs ->
  exists e r, engine_new bn = Ok e /\ engine_query sc e obs = Ok r.
Proof. exact query_succeeds. Qed.
Print Assumptions C03_no_internal_failure.

(** ** C04 *)
Theorem C04_evidence_validated : forall bn sc obs, good_shape bn -> good_sched sc ->
  NoDup (map fst obs) -> ~ In "self" (map fst obs) ->
  exists e, engine_new bn = Ok e /\
    (((forall v x, In (v, x) obs -> In v (vars (net_of bn)) /\ In x (states_of (net_of bn) v)) /\
      exists r, engine_query sc e obs = Ok r) \/
     exists pre v x post, obs = pre ++ (v, x) :: post /\
       (forall u y, In (u, y) pre -> In u (vars (net_of bn)) /\ In y (states_of (net_of bn) u)) /\
       ((~ In v (vars (net_of bn)) /\ engine_query sc e obs = Err (VariableNotInGraphError v)) \/
        (In v (vars (net_of bn)) /\ ~ In x (states_of (net_of bn) v) /\
         engine_query sc e obs = Err (VariableValueNotInDomainError v)))).
Proof. exact new_query_validates. Qed.
Print Assumptions C04_evidence_validated.

Example collider_bad : match engine_new collider with
  | Ok e => engine_query ids e [("A", LInt 1); ("B", LStr "z"); ("D", LInt 0)] = Err (VariableValueNotInDomainError "B")
  | Err _ => False end.
Proof. vm_compute. reflexivity. Qed.

(** ** C07 *)
Theorem C07_samples_partial : forall bn (D : draws) obs n, good_bn bn ->
  (forall i j, good_sched (scheds D i j)) -> (forall i j, 0 < rnd D i j /\ rnd D i j <= 1) ->
  valid_obs (net_of bn) obs -> Pr (net_of bn) (observed obs) <> 0 ->
  exists e ss, engine_new bn = Ok e /\ draw_samples D (e_bbn e) obs n = Ok ss /\ List.length ss = n /\
    forall k s, nth_error ss k = Some s ->
      Permutation (map fst s) (vars (net_of bn)) /\
      (forall v x, In (v, x) s -> In x (states_of (net_of bn) v)) /\
      Pr (net_of bn) (observed s) <> 0 /\
      exists new, s = obs ++ new /\
        (** the j-th new variable: its state's cumulative posterior interval contains the j-th number *)
        forall j v x, nth_error new j = Some (v, x) ->
          In v (vars (net_of bn)) /\ ~ In v (map fst (obs ++ firstn j new)) /\
          exists before after, states_of (net_of bn) v = before ++ x :: after /\
            Qsum (cond_prob (net_of bn) (obs ++ firstn j new) v) before < rnd D k j /\
            rnd D k j <= Qsum (cond_prob (net_of bn) (obs ++ firstn j new) v) before
                         + cond_prob (net_of bn) (obs ++ firstn j new) v x.
Proof. exact new_samples. Qed.
Print Assumptions C07_samples_partial.

Example collider_samples : match engine_new collider with
  | Ok e => draw_samples third (e_bbn e) [("B", LStr "y")] 2 =
      Ok [[("B", LStr "y"); ("A", LInt 1); ("C", LInt 0)]; [("B", LStr "y"); ("C", LInt 0); ("A", LInt 1)]]
  | Err _ => False end.
Proof. vm_compute. reflexivity. Qed.

(** [random.random] can return 0: then the first state is picked though it is impossible, and a
    following step raises IndexError. *)
Theorem C07_zero_draw_refuted :
  exists bn D obs e s, good_bn bn /\ (forall i j, good_sched (scheds D i j)) /\
    (forall i j, 0 <= rnd D i j /\ rnd D i j < 1) /\ valid_obs (net_of bn) obs /\
    Pr (net_of bn) (observed obs) <> 0 /\ engine_new bn = Ok e /\
    draw_samples D (e_bbn e) obs 1 = Ok [s] /\ Pr (net_of bn) (observed s) = 0.
Proof. exact zero_draw. Qed.
Print Assumptions C07_zero_draw_refuted.

Theorem C07_zero_draw_crash_refuted :
  exists bn D obs e, good_bn bn /\ (forall i j, good_sched (scheds D i j)) /\
    (forall i j, 0 <= rnd D i j /\ rnd D i j < 1) /\ valid_obs (net_of bn) obs /\
    Pr (net_of bn) (observed obs) <> 0 /\ engine_new bn = Ok e /\
    draw_samples D (e_bbn e) obs 1 = Err IndexError.
Proof. exact zero_draw_crash. Qed.
Print Assumptions C07_zero_draw_crash_refuted.

(** ** C08 *)

(** [reached bn ops e past]: the calls [ops] on a new engine for [bn] led to [e]; [past] lists them,
    newest first, with whether they succeeded.  [in_force past v] is the argument of the last
    successful do_intervention on [v] unless a successful reset_do on [v] came later. *)
Theorem C08_histories : forall bn ops e past, good_bn bn -> Forall op_ok ops -> reached bn ops e past ->
  exists h : string -> option dist,
    (forall v, match in_force past v with
               | None => h v = None
               | Some a => exists d, h v = Some d /\ dist_arg (net_of bn) v a d
               end) /\
    (forall sc obs, good_sched sc -> joined (edited h (net_of bn)) -> valid_obs (net_of bn) obs ->
       exists r, engine_query sc e obs = Ok r /\ map fst r = vars (net_of bn) /\
         forall v s, In v (vars (net_of bn)) -> In s (states_of (net_of bn) v) ->
           answer r v s = Some (cond_prob (edited h (net_of bn)) obs v s)).
Proof. exact (fun bn ops e past G F R => histories bn ops e past F R G). Qed.
Print Assumptions C08_histories.

(** The stored dictionaries. *)
Theorem C08_stored_cpds : forall bn ops e past, good_shape bn -> Forall op_ok ops -> reached bn ops e past ->
  e_orig e = create_cpds_dict (bn_cpds bn) /\
  forall v, match in_force past v with
            | None => dget String.eqb (e_cpds e) v = dget String.eqb (create_cpds_dict (bn_cpds bn)) v
            | Some a => exists d, dist_arg (net_of bn) v a d /\
                dget String.eqb (e_cpds e) v = Some (map (fun sp => (fst sp, [([], snd sp)])) d)
            end.
Proof. exact (fun bn ops e past G F R => stored_cpds bn ops e past F R G). Qed.
Print Assumptions C08_stored_cpds.

Definition busy : list iop :=
  [OpDo "B" (IvInt 1); OpDo "B" (IvInt 7); OpReset "Z"; OpDo "A" (IvDict [(LInt 1, q 1 2); (LInt 0, q 1 2)]);
   OpQuery [("C", LInt 0)]; OpReset "A"; OpDo "B" (IvDict [(LInt 0, q 1 5); (LInt 1, q 4 5)]); OpDo "C" (IvInt 0)].
Example busy_run : exists e past, reached triangle busy e past /\ Forall op_ok busy /\
  map snd past = [false; true; true; true; true; false; false; true] /\
  in_force past "A" = None /\ in_force past "B" = Some (IvDict [(LInt 0, q 1 5); (LInt 1, q 4 5)]).
Proof. exact busy_reached. Qed.
Example triangle_good : good_bn triangle.
Proof. apply good_bn_sound. vm_compute. reflexivity. Qed.

(** ** C09 *)
Theorem C09_truncated_factorisation : forall bn ops e past v arg e', good_bn bn -> Forall op_ok ops ->
  reached bn ops e past -> arg_dict arg -> do_intervention e v arg = (e', Ok tt) ->
  exists (h : string -> option dist) (d : dist),
    (forall u, match in_force past u with
               | None => h u = None
               | Some a => exists du, h u = Some du /\ dist_arg (net_of bn) u a du
               end) /\
    dist_arg (net_of bn) v arg d /\
    (forall sc obs, good_sched sc -> joined (truncated (edited h (net_of bn)) v d) -> valid_obs (net_of bn) obs ->
       exists r, engine_query sc e' obs = Ok r /\ map fst r = vars (net_of bn) /\
         forall u s, In u (vars (net_of bn)) -> In s (states_of (net_of bn) u) ->
           answer r u s = Some (cond_prob (truncated (edited h (net_of bn)) v d) obs u s)).
Proof. exact (fun bn ops e past v arg e' G F R A E => truncated_factorisation bn ops e past F R v arg e' G A E). Qed.
Print Assumptions C09_truncated_factorisation.

(** do(B = 1) in the triangle leaves P(A) alone and gives P(C | do(B = 1)) = 1/4 P(C | A=0, B=1) + ... *)
Example triangle_do :
  match engine_new triangle with
  | Ok e => match do_intervention e "B" (IvInt 1) with
            | (e', Ok _) => match engine_query ids e' [] with
                            | Ok r => map (fun vd => (fst vd, map (fun sp => (fst sp, this (snd sp))) (snd vd))) r =
                                [("A", [(LInt 0, 1 # 4); (LInt 1, 3 # 4)]); ("B", [(LInt 0, 0%Q); (LInt 1, 1%Q)]);
                                 ("C", [(LInt 0, 5 # 6); (LInt 1, 1 # 6)])]
                            | Err _ => False end
            | (_, Err _) => False end
  | Err _ => False end.
Proof. vm_compute. reflexivity. Qed.

(** ** C10 *)
Theorem C10_failed_interventions : forall bn ops e past v arg, good_shape bn -> Forall op_ok ops ->
  reached bn ops e past -> arg_dict arg ->
  exists h : string -> option dist,
    (forall u, match in_force past u with
               | None => h u = None
               | Some a => exists d, h u = Some d /\ dist_arg (net_of bn) u a d
               end) /\
    ((exists e', do_intervention e v arg = (e', Ok tt)) <->
       is_parent (edited h (net_of bn)) v /\
       match arg with
       | IvDict d => (forall s, In s (map fst d) <-> In s (states_of (net_of bn) v)) /\
                     (forall s p, In (s, p) d -> 0 <= p <= 1) /\ Qsum snd d = 1
       | IvInt z => In (LInt z) (states_of (net_of bn) v)
       | IvOther => False
       end) /\
    (forall e' x, do_intervention e v arg = (e', Err x) -> e' = e).
Proof. exact (fun bn ops e past v arg G F R A => failed_interventions bn ops e past F R v arg G A). Qed.
Print Assumptions C10_failed_interventions.

Example triangle_fail : match engine_new triangle with
  | Ok e => map (fun a => match snd (do_intervention e "B" a) with Ok _ => None | Err x => Some x end)
              [IvInt 2; IvOther; IvDict [(LInt 0, q 1 2); (LInt 1, q 1 3)]; IvDict [(LInt 0, 1)]; IvDict [(LInt 0, 1); (LInt 1, 0)]] =
            [Some ValueError; Some AttributeError; Some ValueError; Some ValueError; None]
  | Err _ => False end.
Proof. vm_compute. reflexivity. Qed.

(** ** C11: false.  In A -> B -> C an intervention on B is accepted, and then every query raises. *)
Theorem C11_queries_after_do_refuted : exists bn e e' v arg, good_bn bn /\ engine_new bn = Ok e /\
  do_intervention e v arg = (e', Ok tt) /\
  forall sc obs, good_sched sc -> forall r, engine_query sc e' obs <> Ok r.
Proof. exact do_breaks_chain. Qed.
Print Assumptions C11_queries_after_do_refuted.

(** What does hold: queries keep working exactly when the cut network is connected. *)
Theorem C11_queries_after_do_partial : forall bn ops e past v arg e', good_shape bn -> Forall op_ok ops ->
  reached bn ops e past -> arg_dict arg -> do_intervention e v arg = (e', Ok tt) ->
  exists (h : string -> option dist) (d : dist),
    (forall u, match in_force past u with
               | None => h u = None
               | Some a => exists du, h u = Some du /\ dist_arg (net_of bn) u a du
               end) /\
    dist_arg (net_of bn) v arg d /\
    forall sc obs, good_sched sc -> valid_obs (net_of bn) obs ->
      ((exists r, engine_query sc e' obs = Ok r) <-> joined (truncated (edited h (net_of bn)) v d)).
Proof. exact (fun bn ops e past v arg e' G F R A E => queries_after_do bn ops e past F R v arg e' G A E). Qed.
Print Assumptions C11_queries_after_do_partial.

(** ** C53: the constructor accepts exactly the names that match ^[0-9a-zA-Z_]+$, but names that
    begin with a digit make it raise a ValueError of the inspect module, and with a node named
    [self] every query raises. *)
Theorem C53_names_refuted : exists bn1 bn2 e,
  forallb name_matches (bn_nodes bn1) = true /\ frames_ok bn1 /\ shape_ok (net_of bn1) /\
  columns_sum_1 (net_of bn1) /\ joined (net_of bn1) /\ engine_new bn1 = Err ValueError /\
  forallb name_matches (bn_nodes bn2) = true /\ frames_ok bn2 /\ shape_ok (net_of bn2) /\
  columns_sum_1 (net_of bn2) /\ joined (net_of bn2) /\ engine_new bn2 = Ok e /\
  engine_query ids e [] = Err KeyError.
Proof. exact bad_names. Qed.
Print Assumptions C53_names_refuted.

Theorem C53_names_partial : forall bn, frames_ok bn -> shape_ok (net_of bn) -> joined (net_of bn) ->
  (forall v, In v (bn_nodes bn) -> is_identifier v = true /\ v <> "self"%string) ->
  forall sc obs, good_sched sc -> valid_obs (net_of bn) obs ->
  exists e r, engine_new bn = Ok e /\ engine_query sc e obs = Ok r.
Proof. exact good_names. Qed.
Print Assumptions C53_names_partial.
