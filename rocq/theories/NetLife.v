(** * NetLife: the life of one BayesianNetwork object. *)
From Coq Require Import List Bool Arith ZArith Lia String QArith Qcanon.
From Verif Require Import Base QcX Digraph SmModel SmThms NetModel NetProofs NetFit NetThms NetMoreModel.
Import ListNotations.
Local Open Scope list_scope.

(** Any method that changes the object. *)
Inductive change :=
| Change (op : nop)
| FitBoth (d : df) (method : string) (prior : option string) (ess : option Qc).

Definition changed (b : bn) (c : change) : bn * res unit :=
  match c with
  | Change op => nstep b op
  | FitBoth d m p e => fit_node_states_and_cpds b d m p e
  end.

Definition change_ok (c : change) : Prop :=
  match c with Change op => nop_ok op | FitBoth d _ _ _ => NoDup (d_cols d) end.

(** The object after its construction from [g] and the calls [cs], of which some may have raised. *)
Definition after (g : graph) (cs : list change) (b0 b : bn) : Prop :=
  reached g /\ named g /\ bn_init g = Ok b0 /\ Forall change_ok cs /\ b = fold_left (fun b c => fst (changed b c)) cs b0.

Lemma set_states_cases b arg : (exists x, set_node_states b arg = (b, Err x)) \/
  exists st, set_node_states b arg = (mkBn (b_nodes b) (b_edges b) (Some st) (b_cpds b), Ok tt) /\
    forall b2, b_nodes b2 = b_nodes b -> set_node_states b2 arg = (mkBn (b_nodes b2) (b_edges b2) (Some st) (b_cpds b2), Ok tt).
Proof.
  unfold set_node_states. destruct (negb _) eqn:E1; [eauto|]. destruct (existsb _ arg) eqn:E2; [eauto|]. destruct (mapM _ arg) as [st|x] eqn:E3; [|eauto].
  right. exists st. split; auto. intros b2 ->. rewrite E1. auto.
Qed.

Lemma set_states_same b b2 arg x : b_nodes b2 = b_nodes b -> set_node_states b arg = (b, Err x) -> set_node_states b2 arg = (b2, Err x).
Proof.
  intros Hn. unfold set_node_states. rewrite Hn. destruct (negb _) eqn:E1; [intros [= ->]; auto|]. destruct (existsb _ arg) eqn:E2; [intros [= ->]; auto|]. destruct (mapM _ arg) as [st|y] eqn:E3; [discriminate|].
  intros [= ->]; auto.
Qed.

Lemma fit_cpds_cases b d m p e : (exists x, fit_cpds b d m p e = (b, Err x)) \/
  exists ts, fit_cpds b d m p e = (mkBn (b_nodes b) (b_edges b) (b_states b) ts, Ok tt).
Proof.
  unfold fit_cpds. destruct (b_states b) as [st|]; [|eauto]. destruct (negb _); [eauto|].
  destruct (String.eqb m _); [eauto|]. destruct (String.eqb m _); [|eauto]. destruct p as [p|]; [|eauto]. destruct (String.eqb p _); [eauto|]. destruct (String.eqb p _); [|eauto]. destruct e; eauto.
Qed.

Lemma fit_cpds_forgets nodes edges states ts ts2 d m p e :
  snd (fit_cpds (mkBn nodes edges states ts) d m p e) = snd (fit_cpds (mkBn nodes edges states ts2) d m p e) /\
  (snd (fit_cpds (mkBn nodes edges states ts) d m p e) = Ok tt ->
     fit_cpds (mkBn nodes edges states ts) d m p e = fit_cpds (mkBn nodes edges states ts2) d m p e).
Proof.
  unfold fit_cpds. cbn [b_states b_nodes b_edges]. unfold get_parents. cbn [b_edges]. destruct states as [st|]; [|split; [auto|discriminate]]. destruct (negb _); [split; [auto|discriminate]|].
  destruct (String.eqb m _); [auto|]. destruct (String.eqb m _); [|split; [auto|discriminate]]. destruct p as [p|]; [|split; [auto|discriminate]]. destruct (String.eqb p _); [auto|]. destruct (String.eqb p _); [|split; [auto|discriminate]].
  destruct e; [auto|split; [auto|discriminate]].
Qed.

Lemma step_refused b op b' x : nstep b op = (b', Err x) -> b' = b.
Proof.
  destruct op as [arg|d|d m p e]; cbn [nstep].
  - destruct (set_states_cases b arg) as [(y & E)|(st & E & _)]; rewrite E; congruence.
  - unfold fit_node_states. destruct (set_states_cases b (map (fun c => (c, unique olabel_eqb (map (fun r => at_col r c) (d_rows d)))) (d_cols d))) as [(y & E)|(st & E & _)]; rewrite E; congruence.
  - destruct (fit_cpds_cases b d m p e) as [(y & E)|(ts & E)]; rewrite E; congruence.
Qed.

Lemma step_graph b op : b_nodes (fst (nstep b op)) = b_nodes b /\ b_edges (fst (nstep b op)) = b_edges b.
Proof.
  destruct op as [arg|d|d m p e]; cbn [nstep].
  - destruct (set_states_cases b arg) as [(y & E)|(st & E & _)]; rewrite E; auto.
  - unfold fit_node_states. destruct (set_states_cases b (map (fun c => (c, unique olabel_eqb (map (fun r => at_col r c) (d_rows d)))) (d_cols d))) as [(y & E)|(st & E & _)]; rewrite E; auto.
  - destruct (fit_cpds_cases b d m p e) as [(y & E)|(ts & E)]; rewrite E; auto.
Qed.

Lemma both_steps b d m p e : fst (fit_node_states_and_cpds b d m p e) = nrun b [FitStates d; FitCpds d m p e] \/
  fst (fit_node_states_and_cpds b d m p e) = nrun b [FitStates d].
Proof.
  unfold fit_node_states_and_cpds, nrun. cbn [fold_left nstep]. destruct (fit_node_states b d) as [b1 [[]|x]]; cbn [fst]; auto.
Qed.

Lemma changed_graph b c : b_nodes (fst (changed b c)) = b_nodes b /\ b_edges (fst (changed b c)) = b_edges b.
Proof.
  destruct c as [op|d m p e]; cbn [changed]; [apply step_graph|].
  destruct (step_graph b (FitStates d)) as [A B]. destruct (step_graph (nrun b [FitStates d]) (FitCpds d m p e)) as [A' B'].
  destruct (both_steps b d m p e) as [-> | ->]; unfold nrun in *; cbn [fold_left] in *; split; congruence.
Qed.

(** ** Every such object is one of the objects of the other theorems *)
Theorem after_reached g cs b0 b : after g cs b0 b -> reached_net b.
Proof.
  intros (R & Nm & E & F & ->). assert (R0 : reached_net b0) by (exists g, []; repeat split; eauto). clear E R Nm. revert b0 R0.
  induction cs as [|c cs IH]; intros b0 R0; auto. inversion F as [|? ? F1 F2]; subst. cbn [fold_left]. apply IH; auto. clear IH.
  assert (More : forall ops, Forall nop_ok ops -> reached_net (nrun b0 ops)).
  { intros ops Fo. destruct R0 as (g0 & ops0 & R & Nm & F0 & b1 & E & ->). exists g0, (ops0 ++ ops). repeat split; auto; [apply Forall_app; auto|].
    exists b1. split; auto. unfold nrun. rewrite fold_left_app. auto. }
  destruct c as [op|d m p e]; cbn [changed].
  - apply (More [op]). auto.
  - destruct (both_steps b0 d m p e) as [-> | ->]; apply More; repeat constructor; auto.
Qed.

Theorem graph_kept g cs b0 b : after g cs b0 b -> bn_nodes b = bn_nodes b0 /\ bn_edges b = bn_edges b0.
Proof.
  intros (_ & _ & _ & _ & ->). unfold bn_nodes, bn_edges. revert b0. induction cs as [|c cs IH]; intros b0; [auto|]. cbn [fold_left]. destruct (IH (fst (changed b0 c))) as [-> ->]. apply changed_graph.
Qed.

Theorem fit_again g cs b0 b d m p e : after g cs b0 b ->
  snd (fit_node_states_and_cpds b d m p e) = snd (fit_node_states_and_cpds b0 d m p e) /\
  (snd (fit_node_states_and_cpds b d m p e) = Ok tt -> fit_node_states_and_cpds b d m p e = fit_node_states_and_cpds b0 d m p e).
Proof.
  intros A. destruct (graph_kept g cs b0 b A) as [Hn He]. unfold bn_nodes, bn_edges in *. unfold fit_node_states_and_cpds, fit_node_states.
  set (arg := map (fun c => (c, unique olabel_eqb (map (fun r => at_col r c) (d_rows d)))) (d_cols d)).
  destruct (set_states_cases b arg) as [(x & E)|(st & E & K)].
  - rewrite E, (set_states_same b b0 arg x); auto. split; auto. discriminate.
  - rewrite E, (K b0) by auto. rewrite Hn, He. apply fit_cpds_forgets.
Qed.

Theorem fit_cpds_again b d m p e b1 d1 m1 p1 e1 : fit_cpds b d1 m1 p1 e1 = (b1, Ok tt) ->
  snd (fit_cpds b1 d m p e) = snd (fit_cpds b d m p e) /\
  (snd (fit_cpds b1 d m p e) = Ok tt -> fit_cpds b1 d m p e = fit_cpds b d m p e).
Proof.
  intros E. destruct (fit_cpds_cases b d1 m1 p1 e1) as [(x & E')|(ts & E')]; rewrite E in E'; [discriminate|]. injection E' as ->.
  destruct b as [ns es st ts0]. cbn [b_nodes b_edges b_states]. apply fit_cpds_forgets.
Qed.
