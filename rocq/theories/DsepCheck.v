(** * DsepCheck: deciding d-separation and the back-door criterion on example networks. *)
From Coq Require Import List Bool Arith Lia String.
From Verif Require Import Base Digraph InferSpec InferCheck DsepSpec.
Import ListNotations.
Local Open Scope list_scope.

Section Check.
  Context (N : net).
  Local Notation es := (parent_arrows N).

  Definition arrow_b (x y : string) : bool := existsb (fun e => String.eqb (fst e) x && String.eqb (snd e) y) es.
  Definition children (x : string) : list string := flat_map (fun e => if String.eqb (fst e) x then [snd e] else []) es.
  Fixpoint below (k : nat) (x : string) : list string :=
    match k with O => children x | S k => children x ++ flat_map (below k) (children x) end.
  Definition depth : nat := List.length es.
  (** [below] has found all descendants *)
  Definition below_ok (x : string) : bool := forallb (fun e => negb (smem (fst e) (x :: below depth x)) || smem (snd e) (below depth x)) es.

  Definition passes_b (Z : list string) (a b c : string) : bool :=
    if arrow_b a b && arrow_b c b then existsb (fun z => String.eqb z b || smem z (below depth b)) Z else negb (smem b Z).
  Fixpoint active_b (Z l : list string) : bool :=
    match l with
    | a :: ((b :: r) as rest) => (arrow_b a b || arrow_b b a) && match r with c :: _ => passes_b Z a b c | [] => true end && active_b Z rest
    | _ => true
    end.
  Definition nbrs (x : string) : list string := flat_map (fun e => (if String.eqb (fst e) x then [snd e] else []) ++ (if String.eqb (snd e) x then [fst e] else [])) es.
  Fixpoint trails (k : nat) (x : string) : list (list string) :=
    [x] :: match k with O => [] | S k => map (cons x) (flat_map (trails k) (nbrs x)) end.
  Definition nodes : list string := map fst es ++ map snd es.
  Definition all_trails (x : string) : list (list string) := trails (List.length nodes) x.
  Definition all_below : bool := forallb below_ok nodes.

  Definition dsep_b (Z : list string) (x y : string) : bool :=
    all_below && forallb (fun l => negb (String.eqb (last l x) y) || negb (nodupb String.eqb l) || negb (active_b Z l)) (all_trails x).
  Definition back_door_b (Z : list string) (v u : string) : bool :=
    all_below && forallb (fun z => negb (String.eqb z v) && negb (smem z (below depth v)) && below_ok v) Z &&
    forallb (fun l => negb (String.eqb (last l v) u) || negb (nodupb String.eqb l) || negb (active_b Z l) ||
                      match l with _ :: b :: _ => negb (arrow_b b v) | _ => true end) (all_trails v).

  Lemma arrow_b_spec x y : arrow_b x y = true <-> arrow N x y.
  Proof.
    unfold arrow_b, arrow. rewrite existsb_exists. split.
    - intros ([a b] & H & E). apply andb_prop in E. cbn in E. destruct E as [E1 E2]. apply String.eqb_eq in E1, E2. subst. auto.
    - intros H. exists (x, y). split; auto. cbn. rewrite !String.eqb_refl. auto.
  Qed.
  Lemma children_In x y : In y (children x) <-> In (x, y) es.
  Proof.
    unfold children. rewrite in_flat_map. split.
    - intros ([a b] & H & E). cbn in E. destruct (String.eqb_spec a x) as [->|]; [|destruct E]. destruct E as [<-|[]]. auto.
    - intros H. exists (x, y). split; auto. cbn. rewrite String.eqb_refl. left; auto.
  Qed.
  Lemma below_path k : forall x y, In y (below k x) -> path es x y.
  Proof.
    induction k as [|k IH]; intros x y H; cbn [below] in H; [apply path_one, children_In; auto|].
    apply in_app_or in H. destruct H as [H|H]; [apply path_one, children_In; auto|]. apply in_flat_map in H. destruct H as (z & Hz & H). eapply path_step; [apply children_In; exact Hz|auto].
  Qed.
  Lemma below_all x y : below_ok x = true -> path es x y -> In y (below depth x).
  Proof.
    intros OK P. unfold below_ok in OK. rewrite forallb_forall in OK.
    assert (G : forall a, path es a y -> In a (x :: below depth x) -> In y (below depth x)); [|apply (G x P); left; auto].
    clear P. intros a P. induction P as [a b H|a b c H P IH]; intros Ha; specialize (OK _ H); cbn [fst snd] in OK; apply (proj2 (smem_In a _)) in Ha; rewrite Ha in OK; cbn [negb orb] in OK; apply smem_In in OK; [auto|].
    apply IH. right. auto.
  Qed.
  Lemma arrow_node x y : arrow N x y -> In x nodes /\ In y nodes.
  Proof. intros H. unfold nodes. rewrite !in_app_iff, !in_map_iff. split; [left|right]; exists (x, y); auto. Qed.

  Lemma passes_b_complete Z a b c : all_below = true -> In b nodes -> passes N Z a b c -> passes_b Z a b c = true.
  Proof.
    intros OK Hb [P1 P2]. unfold passes_b. destruct (arrow_b a b && arrow_b c b)%bool eqn:E.
    - apply andb_prop in E. destruct E as [E1 E2]. apply arrow_b_spec in E1. apply arrow_b_spec in E2. destruct P1 as (z & Hz & Q); auto.
      apply existsb_exists. exists z. split; auto. destruct Q as [->|Q]; [rewrite String.eqb_refl; auto|]. apply orb_true_iff. right. apply smem_In. apply below_all; auto.
      unfold all_below in OK. rewrite forallb_forall in OK. auto.
    - apply negb_true_iff. destruct (smem b Z) eqn:Q; auto. apply smem_In in Q. exfalso. apply P2; auto. intros [E1 E2]. apply arrow_b_spec in E1. apply arrow_b_spec in E2. rewrite E1, E2 in E. discriminate.
  Qed.
  Lemma active_b_complete Z : all_below = true -> forall l, active N Z l -> active_b Z l = true.
  Proof.
    intros OK. induction l as [|a [|b l] IH]; intros H; auto. destruct H as (H1 & H2 & H3). change ((arrow_b a b || arrow_b b a) && match l with c :: _ => passes_b Z a b c | [] => true end && active_b Z (b :: l) = true)%bool.
    assert (Hb : In b nodes) by (destruct H1 as [H1|H1]; apply arrow_node in H1; tauto).
    rewrite (IH H3), andb_true_r. apply andb_true_iff. split.
    - apply orb_true_iff. destruct H1 as [H1|H1]; [left|right]; apply arrow_b_spec; auto.
    - destruct l; auto. apply passes_b_complete; auto.
  Qed.
  Lemma trails_In Z k : forall l x, active N Z (x :: l) -> (List.length l <= k)%nat -> In (x :: l) (trails k x).
  Proof.
    induction k as [|k IH]; intros l x A Hl; [destruct l; [left; auto|cbn in Hl; lia]|]. destruct l as [|y l]; [left; auto|]. right. apply in_map. apply in_flat_map.
    exists y. destruct A as (A1 & _ & A2). split; [|apply IH; auto; cbn in Hl; lia].
    unfold nbrs. apply in_flat_map. destruct A1 as [A1|A1]; [exists (x, y)|exists (y, x)]; (split; [exact A1|]); cbn; rewrite String.eqb_refl; apply in_app_iff; cbn; auto.
  Qed.
  Lemma active_nodes Z : forall l x, active N Z (x :: l) -> incl l nodes.
  Proof.
    induction l as [|y l IH]; intros x A z Hz; [destruct Hz|]. destruct A as (A1 & _ & A2). destruct Hz as [<-|Hz]; [destruct A1 as [A1|A1]; apply arrow_node in A1; tauto|apply (IH y A2 z Hz)].
  Qed.
  Lemma all_trails_In Z x l : active N Z (x :: l) -> NoDup (x :: l) -> In (x :: l) (all_trails x).
  Proof.
    intros A ND. apply (trails_In Z); auto. inversion ND; subst. apply NoDup_incl_length; auto. apply (active_nodes Z l x A).
  Qed.
  Lemma nodupb_true l : NoDup l -> nodupb String.eqb l = true.
  Proof.
    induction 1 as [|x l Nx ND IH]; auto. cbn. rewrite IH, andb_true_r. apply negb_true_iff. destruct (memb String.eqb x l) eqn:E; auto. exfalso. apply Nx.
    apply (memb_In _ String.eqb_spec) in E. auto.
  Qed.

  Theorem dsep_sound Z x y : dsep_b Z x y = true -> d_separated N Z x y.
  Proof.
    intros H l (ND & Hd & La) A. unfold dsep_b in H. apply andb_prop in H. destruct H as [OK H]. rewrite forallb_forall in H.
    destruct l as [|x' l]; [discriminate|]. injection Hd as ->. specialize (H _ (all_trails_In Z x l A ND)).
    rewrite La, String.eqb_refl, (nodupb_true _ ND), (active_b_complete Z OK _ A) in H. discriminate.
  Qed.
  Theorem back_door_sound Z v u : back_door_b Z v u = true -> back_door N Z v u.
  Proof.
    unfold back_door_b. intros H. apply andb_prop in H. destruct H as [H H2]. apply andb_prop in H. destruct H as [OK H1]. rewrite forallb_forall in H1, H2. split.
    - intros z Hz. specialize (H1 z Hz). apply andb_prop in H1. destruct H1 as [H1 OV]. apply andb_prop in H1. destruct H1 as [Q1 Q2]. apply negb_true_iff in Q1, Q2. split.
      + intros ->. rewrite String.eqb_refl in Q1. discriminate.
      + intros P. apply (below_all v z OV) in P. apply smem_In in P. congruence.
    - intros b l (ND & _ & La) Ab A. specialize (H2 _ (all_trails_In Z v (b :: l) A ND)). apply arrow_b_spec in Ab.
      rewrite La, String.eqb_refl, (nodupb_true _ ND), (active_b_complete Z OK _ A), Ab in H2. discriminate.
  Qed.
End Check.
